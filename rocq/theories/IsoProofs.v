(** * Robots with the same structure answer alike *)
From Coq Require Import String NArith Lia.
From stdpp Require Import gmap.
From Verif Require Import Scalar Geometry Joint Link Prog NodeM ChainM FuncsM IkM Api RunLemmas SpecIso.

Section IsoProofs.
  Context {T : Type} `{Sc : Scalar T}.
  Variables (kids : bool) (D : nat -> Prop) (f : nat -> nat).
  Hypothesis Hinj : forall a b, D a -> D b -> f a = f b -> a = b.
  Notation tw := (twin_of D f). Notation ntw := (node_twin kids D f). Notation stw := (state_twin kids D f). Notation otw := (outcome_twin kids D f).

  Fixpoint psim {A} (Q : A -> A -> Prop) (p p' : prog T A) {struct p} : Prop :=
    match p, p' with
    | Ret a, Ret b => Q a b
    | Lock a k, Lock b k' => tw a b /\ psim Q k k'
    | Unlock a k, Unlock b k' => tw a b /\ psim Q k k'
    | Get a k, Get b k' => tw a b /\ forall n n', ntw n n' -> psim Q (k n) (k' n')
    | Put a n k, Put b n' k' => tw a b /\ ntw n n' /\ psim Q k k'
    | New n k, New n' k' => ntw n n' /\ forall a b, tw a b -> psim Q (k a) (k' b)
    | Upgrade a k, Upgrade b k' => tw a b /\ forall x, psim Q (k x) (k' x)
    | Panic m, Panic m' => m' = m
    | NoFuel, NoFuel => True
    | _, _ => False
    end.
  Lemma psim_bind {A B} (Q : A -> A -> Prop) (Q' : B -> B -> Prop) (p p' : prog T A) (g g' : A -> prog T B) :
    psim Q p p' -> (forall a b, Q a b -> psim Q' (g a) (g' b)) -> psim Q' (bind p g) (bind p' g').
  Proof.
    intros Hp Hf. revert p' Hp. induction p; intros []; cbn; intros Hp; try contradiction; auto.
    all: try (destruct Hp as [Hx Hp]; split; [exact Hx|]; auto).
    destruct Hp as [Hn Hp]. split; [exact Hn|]. auto.
  Qed.
  Lemma psim_impl {A} (Q Q' : A -> A -> Prop) (p p' : prog T A) : psim Q p p' -> (forall a b, Q a b -> Q' a b) -> psim Q' p p'.
  Proof.
    intros Hp HQ. revert p' Hp. induction p; intros []; cbn; intros Hp; try contradiction; auto.
    all: try (destruct Hp as [Hx Hp]; split; [exact Hx|]; auto).
    destruct Hp as [Hn Hp]. split; [exact Hn|]. auto.
  Qed.
  Lemma tw_eq a b a' b' : tw a a' -> tw b b' -> a = b <-> a' = b'.
  Proof. intros [Ha ->] [Hb ->]. split; [congruence|]. apply Hinj; assumption. Qed.

  Lemma stw_locks (s s' : sh T) (L L' : gmap nat nat) : stw s s' -> (forall a, D a -> L' !! f a = L !! a) -> stw (set_locks s L) (set_locks s' L').
  Proof. intros [H1 H2 H3 H4] HL. split; assumption. Qed.
  Lemma stw_unwind t (s s' : sh T) : stw s s' -> stw (unwind t s) (unwind t s').
  Proof.
    intros [H1 H2 H3 H4]. split; cbn; auto.
    - intros a Ha. rewrite !map_filter_lookup. rewrite (H2 a Ha). reflexivity.
    - intros a Ha. rewrite !elem_of_union, (H3 a Ha), !elem_of_dom. rewrite !map_filter_lookup, (H2 a Ha). reflexivity.
  Qed.
  Lemma psim_run {A} (Q : A -> A -> Prop) t (p : prog T A) : forall p' s s', psim Q p p' -> stw s s' -> otw Q (run t p s) (run t p' s').
  Proof.
    induction p as [x|a k IH|a k IH|a k IH|a n k IH|n k IH|a k IH|m|]; intros [] s s'; cbn [psim]; try contradiction; intros Hp Hs; cbn [run].
    - split; assumption.
    - destruct Hp as [[Ha ->] Hp]. pose proof (st_heap _ _ _ _ _ Hs a Ha) as Hh. destruct (heap s !! a), (heap s' !! f a); try contradiction; [|exact I].
      rewrite (st_locks _ _ _ _ _ Hs a Ha). destruct (locks s !! a); [split; [reflexivity|exact Hs]|].
      pose proof (st_poison _ _ _ _ _ Hs a Ha) as Hpo. destruct (decide (a ∈ poison s)), (decide (f a ∈ poison s')); try tauto.
      + split; [reflexivity|apply stw_unwind; exact Hs].
      + apply IH; [exact Hp|]. apply stw_locks; [exact Hs|]. intros b Hb. destruct (decide (b = a)) as [->|Hne]; [rewrite !lookup_insert; reflexivity|].
        rewrite !lookup_insert_ne by auto. apply (st_locks _ _ _ _ _ Hs b Hb).
    - destruct Hp as [[Ha ->] Hp]. rewrite (st_locks _ _ _ _ _ Hs a Ha). destruct (decide _); [|exact I].
      apply IH; [exact Hp|]. apply stw_locks; [exact Hs|]. intros b Hb. destruct (decide (b = a)) as [->|Hne]; [rewrite !lookup_delete; reflexivity|].
      rewrite !lookup_delete_ne by auto. apply (st_locks _ _ _ _ _ Hs b Hb).
    - destruct Hp as [[Ha ->] Hp]. rewrite (st_locks _ _ _ _ _ Hs a Ha). destruct (decide _); [|exact I].
      pose proof (st_heap _ _ _ _ _ Hs a Ha) as Hh. destruct (heap s !! a), (heap s' !! f a); try contradiction; [|exact I]. apply IH; [apply Hp; exact Hh|exact Hs].
    - destruct Hp as ([Ha ->] & Hn & Hp). rewrite (st_locks _ _ _ _ _ Hs a Ha). destruct (decide _); [|exact I].
      apply IH; [exact Hp|]. destruct Hs as [H1 H2 H3 H4]. split; cbn; auto. intros b Hb. destruct (decide (b = a)) as [->|Hne]; [rewrite !lookup_insert; exact Hn|].
      rewrite !lookup_insert_ne by auto. apply H1, Hb.
    - destruct Hp as [Hn Hp]. pose proof (st_next _ _ _ _ _ Hs 0) as H0. rewrite !Nat.add_0_r in H0. apply IH; [apply Hp; exact H0|].
      destruct Hs as [H1 H2 H3 H4]. destruct H0 as [D0 E0]. split; cbn; auto.
      + intros b Hb. destruct (decide (b = nxt s)) as [->|Hne]; [rewrite E0, !lookup_insert; exact Hn|].
        rewrite E0, !lookup_insert_ne; [apply H1, Hb|auto|intros E; apply Hne; apply Hinj; auto].
      + intros i. rewrite <- !Nat.add_succ_r. apply H4.
    - destruct Hp as [[Ha ->] Hp]. pose proof (st_heap _ _ _ _ _ Hs a Ha) as Hh.
      assert (E : bool_decide (is_Some (heap s' !! f a)) = bool_decide (is_Some (heap s !! a))).
      { apply bool_decide_ext. destruct (heap s !! a), (heap s' !! f a); try contradiction; split; eauto; intros [? ?]; discriminate. }
      rewrite E. apply IH; [apply Hp|exact Hs].
    - subst msg. split; [reflexivity|apply stw_unwind; exact Hs].
    - exact Hs.
  Qed.

  (** ** combinators *)
  Lemma psim_read {A} (Q : A -> A -> Prop) a b (g g' : node T -> A) : tw a b -> (forall n n', ntw n n' -> Q (g n) (g' n')) -> psim Q (read a g) (read b g').
  Proof. intros H Hg. cbn. auto 10. Qed.
  Lemma psim_modify a b (g g' : node T -> node T) : tw a b -> (forall n n', ntw n n' -> ntw (g n) (g' n')) -> psim eq (modify a g) (modify b g').
  Proof. intros H Hg. cbn. auto 10. Qed.
  Lemma psim_then {A B} (Q : A -> A -> Prop) (Q' : B -> B -> Prop) (p p' : prog T A) (q q' : prog T B) : psim Q p p' -> psim Q' q q' -> psim Q' (p ;;; q) (p' ;;; q').
  Proof. intros Hp Hq. eapply psim_bind; [exact Hp|]. auto. Qed.
  Lemma psim_expect {A} (Q : A -> A -> Prop) o o' m : option_Forall2 Q o o' -> psim Q (expect o m) (expect o' m).
  Proof. intros []; cbn; auto. Qed.
  Lemma option_eq {A} (o : option A) : option_Forall2 eq o o.
  Proof. destruct o; constructor; reflexivity. Qed.
  Lemma Forall2_eq {A} (l l' : list A) : Forall2 eq l l' -> l = l'.
  Proof. induction 1; congruence. Qed.
  Lemma psim_mapM {A A' B} (P : A -> A' -> Prop) (Q : B -> B -> Prop) (g : A -> prog T B) (g' : A' -> prog T B) l l' :
    Forall2 P l l' -> (forall a b, P a b -> psim Q (g a) (g' b)) -> psim (Forall2 Q) (mapM g l) (mapM g' l').
  Proof.
    intros H Hg. induction H as [|x x' l l' Hx H IH]; cbn [mapM]; [constructor|]. eapply psim_bind; [apply Hg, Hx|]. intros y y' Hy.
    eapply psim_bind; [exact IH|]. intros ys ys' Hys. constructor; assumption.
  Qed.
  Lemma psim_filterM (g g' : nat -> prog T bool) l l' : Forall2 tw l l' -> (forall a b, tw a b -> psim eq (g a) (g' b)) -> psim (Forall2 tw) (filterM g l) (filterM g' l').
  Proof.
    intros H Hg. induction H as [|x x' l l' Hx H IH]; cbn [filterM]; [constructor|]. eapply psim_bind; [apply Hg, Hx|]. intros b _ <-.
    eapply psim_bind; [exact IH|]. intros ys ys' Hys. cbn. destruct b; [constructor; assumption|exact Hys].
  Qed.
  Lemma psim_forM {A} (P : A -> A -> Prop) (g g' : A -> prog T unit) l l' : Forall2 P l l' -> (forall a b, P a b -> psim eq (g a) (g' b)) -> psim eq (forM_ g l) (forM_ g' l').
  Proof. intros H Hg. induction H as [|x x' l l' Hx H IH]; cbn [forM_]; [reflexivity|]. eapply psim_then; [apply Hg, Hx|exact IH]. Qed.
  Lemma psim_forM_try {A} (P : A -> A -> Prop) (g g' : A -> prog T (result T unit)) l l' : Forall2 P l l' -> (forall a b, P a b -> psim eq (g a) (g' b)) -> psim eq (forM_try g l) (forM_try g' l').
  Proof. intros H Hg. induction H as [|x x' l l' Hx H IH]; cbn [forM_try]; [reflexivity|]. eapply psim_bind; [apply Hg, Hx|]. intros r _ <-. destruct r; [exact IH|reflexivity]. Qed.
  Lemma psim_findM (g g' : nat -> prog T bool) l l' : Forall2 tw l l' -> (forall a b, tw a b -> psim eq (g a) (g' b)) -> psim (option_Forall2 tw) (findM g l) (findM g' l').
  Proof. intros H Hg. induction H as [|x x' l l' Hx H IH]; cbn [findM]; [constructor|]. eapply psim_bind; [apply Hg, Hx|]. intros r _ <-. destruct r; [constructor; exact Hx|exact IH]. Qed.
  Lemma psim_positionM (g g' : nat -> prog T bool) l l' : Forall2 tw l l' -> (forall a b, tw a b -> psim eq (g a) (g' b)) -> psim eq (positionM g l) (positionM g' l').
  Proof.
    intros H Hg. induction H as [|x x' l l' Hx H IH]; cbn [positionM]; [reflexivity|]. eapply psim_bind; [apply Hg, Hx|]. intros r _ <-.
    destruct r; [reflexivity|]. eapply psim_bind; [exact IH|]. intros o _ <-. reflexivity.
  Qed.
  Lemma zip_tw {B} l l' (ps : list B) : Forall2 tw l l' -> Forall2 (fun x y => tw (fst x) (fst y) /\ snd y = snd x) (zip l ps) (zip l' ps).
  Proof. intros H. revert ps. induction H; intros [|p ps]; cbn; constructor; auto. Qed.
  (** programs without commands *)
  Definition pure {A} (p : prog T A) : Prop := match p with Ret _ | Panic _ | NoFuel => True | _ => False end.
  Lemma psim_pure {A} (p : prog T A) : pure p -> psim eq p p.
  Proof. destruct p; cbn; try contradiction; auto. Qed.
  Lemma pure_bind {A B} (p : prog T A) (g : A -> prog T B) : pure p -> (forall x, pure (g x)) -> pure (bind p g).
  Proof. destruct p; cbn; try contradiction; auto. Qed.
  Lemma pure_usize ovf a b : pure (usize_sub (T := T) ovf a b).
  Proof. unfold usize_sub. repeat destruct (decide _); cbn; auto. destruct ovf; exact I. Qed.
  Lemma pure_columns {A} ovf idx : forall i (l : list A), pure (remove_columns (T := T) ovf i idx l).
  Proof.
    induction idx as [|j idx IH]; intros i l; cbn [remove_columns]; [exact I|]. apply pure_bind; [apply pure_usize|]. intros k. apply pure_bind; [|intros; apply IH].
    unfold remove_nth. destruct (decide _); exact I.
  Qed.
  Lemma pure_remove_rows ovf ops : forall i r (m : mat T), pure (remove_rows ovf i r ops m).
  Proof.
    induction ops as [|[] ops IH]; intros i r m; cbn [remove_rows]; [exact I|apply IH|]. apply pure_bind; [apply pure_usize|]. intros k. destruct (decide _); [apply IH|exact I].
  Qed.
  Lemma pure_rows idx : forall l, pure (insert_rows (T := T) idx l).
  Proof.
    induction idx as [|j idx IH]; intros l; cbn [insert_rows]; [exact I|]. apply pure_bind; [|intros; apply IH]. unfold insert_nth. destruct (decide _); exact I.
  Qed.
  Lemma pure_expect {A} (o : option A) m : pure (expect (T := T) o m).
  Proof. destruct o; exact I. Qed.
  Lemma pure_new ovf la sv orig err jac av req idx : pure (new_positions (T := T) ovf la sv orig err jac av req idx).
  Proof.
    unfold new_positions. destruct (decide _).
    - destruct (nullspace_function sv).
      + apply pure_bind; [apply pure_expect|]. intros P. apply pure_bind; [apply pure_expect|]. intros x. apply pure_bind; [apply pure_columns|]. intros y.
        destruct (decide _); [|exact I]. apply pure_bind; [apply pure_rows|]. intros z. exact I.
      + apply pure_bind; [apply pure_expect|]. intros P. apply pure_bind; [apply pure_rows|]. intros z. exact I.
    - destruct (lu_solve la jac err); exact I.
  Qed.

  (** ** nodes *)
  Ltac keep := intros n n' Hn; destruct Hn; split; cbn; auto.
  Lemma sim_new j : psim tw (node_new j) (node_new j).
  Proof. cbn. split; [|auto]. split; cbn; auto; try constructor. Qed.
  Lemma sim_parent a b : tw a b -> psim (option_Forall2 tw) (node_parent a) (node_parent b).
  Proof.
    intros H. unfold node_parent. cbn. split; [exact H|]. split; [exact H|]. intros n n' Hn. destruct (tw_parent _ _ _ _ _ Hn); cbn.
    - split; [assumption|]. intros up. split; [exact H|]. destruct up; constructor; assumption.
    - split; [exact H|constructor].
  Qed.
  Lemma sim_mimic_parent a b : tw a b -> psim (option_Forall2 tw) (node_mimic_parent a) (node_mimic_parent b).
  Proof.
    intros H. unfold node_mimic_parent. cbn. split; [exact H|]. split; [exact H|]. intros n n' Hn. destruct (tw_mimic_parent _ _ _ _ _ Hn); cbn.
    - split; [assumption|]. intros up. split; [exact H|]. destruct up; constructor; assumption.
    - split; [exact H|constructor].
  Qed.
  Lemma sim_children a b : kids = true -> tw a b -> psim (Forall2 tw) (node_children a) (node_children b).
  Proof. intros Hk H. apply psim_read; [exact H|]. intros n n' Hn. apply (tw_children _ _ _ _ _ Hn Hk). Qed.
  Lemma sim_set_parent a a' b b' : tw a a' -> tw b b' -> psim eq (node_set_parent a b) (node_set_parent a' b').
  Proof.
    intros Ha Hb. eapply psim_then; apply psim_modify; auto.
    - keep. constructor. exact Hb.
    - keep. intros Hk. apply Forall2_app; auto.
  Qed.
  Lemma filter_tw a a' l l' : tw a a' -> Forall2 tw l l' -> Forall2 tw (filter (fun x => x <> a) l) (filter (fun x => x <> a') l').
  Proof.
    intros Ha H. induction H as [|x x' l l' Hx H IH]; [constructor|]. rewrite !filter_cons. pose proof (tw_eq _ _ _ _ Hx Ha) as E.
    destruct (decide (x <> a)), (decide (x' <> a')); try tauto. constructor; assumption.
  Qed.
  Lemma sim_remove_parent a a' b b' : tw a a' -> tw b b' -> psim eq (node_remove_parent a b) (node_remove_parent a' b').
  Proof.
    intros Ha Hb. eapply psim_then; apply psim_modify; auto.
    - keep. constructor.
    - keep. intros Hk. apply filter_tw; auto.
  Qed.
  Lemma sim_is_root a b : tw a b -> psim eq (node_is_root a) (node_is_root b).
  Proof. intros H. apply psim_read; [exact H|]. intros n n' Hn. destruct (tw_parent _ _ _ _ _ Hn); reflexivity. Qed.
  Lemma sim_is_end a b : kids = true -> tw a b -> psim eq (node_is_end a) (node_is_end b).
  Proof. intros Hk H. apply psim_read; [exact H|]. intros n n' Hn. destruct (tw_children _ _ _ _ _ Hn Hk); reflexivity. Qed.
  Lemma sim_joint {A} a b (g : joint T -> A) : tw a b -> psim eq (read a (fun n => g (n_joint n))) (read b (fun n => g (n_joint n))).
  Proof. intros H. apply psim_read; [exact H|]. intros n n' Hn. rewrite (tw_joint _ _ _ _ _ Hn). reflexivity. Qed.
  Lemma ntw_joint n n' (g : joint T -> joint T) : ntw n n' -> ntw (set_n_joint n (g (n_joint n))) (set_n_joint n' (g (n_joint n'))).
  Proof. intros []. split; cbn; auto. congruence. Qed.
  Lemma sim_joint_mod a b (g : joint T -> joint T) : tw a b -> psim eq (modify a (fun n => set_n_joint n (g (n_joint n)))) (modify b (fun n => set_n_joint n (g (n_joint n)))).
  Proof. intros H. apply psim_modify; [exact H|]. intros n n'. apply ntw_joint. Qed.
  Lemma sim_mimic self self' p cs cs' : tw self self' -> Forall2 tw cs cs' -> psim eq (mimic_loop self p cs) (mimic_loop self' p cs').
  Proof.
    intros Hs H. induction H as [|c c' cs cs' Hc H IH]; cbn [mimic_loop]; [reflexivity|]. cbn [lock get bind psim]. split; [exact Hc|]. split; [exact Hc|]. intros n n' Hn.
    rewrite (tw_mimic _ _ _ _ _ Hn). destruct (n_mimic n) as [m|].
    - pose proof (ntw_joint n n' (fun j => fst (joint_set j (mimic_position m p))) Hn) as Hr. cbn zeta. rewrite (tw_joint _ _ _ _ _ Hn) in *. cbn [put bind psim]. split; [exact Hc|]. split; [exact Hr|].
      destruct (snd (joint_set (n_joint n) (mimic_position m p))); cbn [unlock bind psim]; auto.
    - eapply psim_bind; [apply (sim_joint _ _ j_name); exact Hs|]. intros x _ <-. eapply psim_bind; [apply (sim_joint _ _ j_name); exact Hc|]. intros y _ <-. cbn. auto.
  Qed.
  Lemma sim_set a b p : tw a b -> psim eq (node_set_joint_position a p) (node_set_joint_position b p).
  Proof.
    intros H. unfold node_set_joint_position. cbn [lock get bind psim]. split; [exact H|]. split; [exact H|]. intros n n' Hn.
    destruct (tw_mimic_parent _ _ _ _ _ Hn); [cbn; auto|].
    pose proof (ntw_joint n n' (fun j => fst (joint_set j p)) Hn) as Hr. cbn zeta. rewrite (tw_joint _ _ _ _ _ Hn) in *. cbn [put bind psim]. split; [exact H|]. split; [exact Hr|].
    destruct (snd (joint_set (n_joint n) p)); [|cbn; auto]. eapply psim_bind; [apply sim_mimic; [exact H|apply (tw_mimic_children _ _ _ _ _ Hn)]|]. intros x _ <-. cbn. auto.
  Qed.
  Lemma sim_set_mimic_parent a a' b b' m : tw a a' -> tw b b' -> psim eq (node_set_mimic_parent a b m) (node_set_mimic_parent a' b' m).
  Proof.
    intros Ha Hb. eapply psim_then; [|eapply psim_then]; apply psim_modify; auto.
    - keep. constructor. exact Hb.
    - keep. apply Forall2_app; auto.
    - keep.
  Qed.
  Lemma sim_set_link a b l : tw a b -> psim eq (node_set_link a l) (node_set_link b l).
  Proof. intros H. apply psim_modify; [exact H|]. keep. Qed.
  Lemma sim_link a b : tw a b -> psim eq (node_link a) (node_link b).
  Proof. intros H. apply psim_read; [exact H|]. intros n n' Hn. symmetry. apply (tw_link _ _ _ _ _ Hn). Qed.
  Lemma sim_fmt a b : tw a b -> psim eq (node_fmt a) (node_fmt b).
  Proof. intros H. apply psim_read; [exact H|]. intros n n' Hn. unfold node_string. rewrite (tw_link _ _ _ _ _ Hn), (tw_joint _ _ _ _ _ Hn). reflexivity. Qed.
  Lemma sim_wt a b : tw a b -> psim eq (node_world_transform a) (node_world_transform b).
  Proof. apply (sim_joint a b j_wt_cache). Qed.
  Lemma sim_wv a b : tw a b -> psim eq (node_world_velocity a) (node_world_velocity b).
  Proof. apply (sim_joint a b j_wv_cache). Qed.
  Lemma sim_parent_wt a b : tw a b -> psim eq (parent_world_transform a) (parent_world_transform b).
  Proof. intros H. eapply psim_bind; [apply sim_parent, H|]. intros o o' []; [apply sim_wt; assumption|reflexivity]. Qed.
  Lemma sim_parent_wv a b : tw a b -> psim eq (parent_world_velocity a) (parent_world_velocity b).
  Proof. intros H. eapply psim_bind; [apply sim_parent, H|]. intros o o' []; [apply sim_wv; assumption|reflexivity]. Qed.
  Definition next_tw {A} (P : A -> A -> Prop) (x y : nat * A) : Prop := tw (fst x) (fst y) /\ P (snd x) (snd y).
  Lemma rev_tw l l' : Forall2 tw l l' -> Forall2 tw (rev l) (rev l').
  Proof. induction 1; cbn; [constructor|]. apply Forall2_app; auto. Qed.
  Lemma sim_ancestors_next o o' : option_Forall2 tw o o' -> psim (option_Forall2 (next_tw (option_Forall2 tw))) (ancestors_next o) (ancestors_next o').
  Proof.
    intros []; cbn [ancestors_next]; [|constructor]. eapply psim_bind; [apply sim_parent; eassumption|]. intros p p' Hp. constructor. split; assumption.
  Qed.
  Lemma sim_ancestors fuel : forall o o', option_Forall2 tw o o' -> psim (Forall2 tw) (ancestors_collect fuel o) (ancestors_collect fuel o').
  Proof.
    induction fuel as [|fuel IH]; intros o o' H; cbn [ancestors_collect]; [exact I|]. eapply psim_bind; [apply sim_ancestors_next, H|].
    intros r r' []; [|constructor]. destruct x as [x1 x2], y as [y1 y2]. match goal with H : next_tw _ _ _ |- _ => destruct H as [H1 H2] end. cbn in H1, H2.
    eapply psim_bind; [apply IH, H2|]. intros l l' Hl. constructor; assumption.
  Qed.
  Lemma sim_descendants fuel : kids = true -> forall l l', Forall2 tw l l' -> psim (Forall2 tw) (descendants_collect fuel l) (descendants_collect fuel l').
  Proof.
    intros Hk. induction fuel as [|fuel IH]; intros l l' H; cbn [descendants_collect]; [exact I|]. destruct H as [|x x' l l' Hx H]; cbn [descendants_next bind]; [constructor|].
    eapply (psim_bind (option_Forall2 (next_tw (Forall2 tw)))).
    - eapply psim_bind; [apply sim_children; assumption|]. intros c c' Hc. constructor. split; [exact Hx|]. apply Forall2_app; [apply rev_tw, Hc|assumption].
    - intros r r' []; [|constructor]. destruct x0 as [x1 x2], y as [y1 y2]. match goal with H : next_tw _ _ _ |- _ => destruct H as [H1 H2] end. cbn in H1, H2.
      eapply psim_bind; [apply IH, H2|]. intros k k' Hk'. constructor; assumption.
  Qed.

  (** ** chains *)
  Notation ctw := (chain_twin D f).
  Lemma sim_from_nodes l l' : Forall2 tw l l' -> psim ctw (from_nodes l) (from_nodes l').
  Proof.
    intros H. eapply psim_bind; [apply psim_filterM; [exact H|]; intros a b Hab; apply (sim_joint a b is_movable Hab)|].
    intros m m' Hm. split; [exact H|]. split; [exact Hm|]. cbn. symmetry. eapply Forall2_length, Hm.
  Qed.
  Lemma sim_from_root fuel a b : kids = true -> tw a b -> psim ctw (from_root fuel a) (from_root fuel b).
  Proof. intros Hk H. eapply psim_bind; [apply (sim_descendants fuel Hk); auto|]. apply sim_from_nodes. Qed.
  Lemma sim_from_end fuel a b : tw a b -> psim ctw (from_end fuel a) (from_end fuel b).
  Proof. intros H. eapply psim_bind; [apply sim_ancestors; constructor; exact H|]. intros l l' Hl. apply sim_from_nodes, rev_tw, Hl. Qed.
  Lemma sim_until r r' fuel : tw r r' -> forall o o', option_Forall2 tw o o' -> psim (Forall2 tw) (ancestors_until fuel o r) (ancestors_until fuel o' r').
  Proof.
    intros Hr. induction fuel as [|fuel IH]; intros o o' H; cbn [ancestors_until]; [exact I|]. eapply psim_bind; [apply sim_ancestors_next, H|].
    intros q q' []; [|constructor]. destruct x as [x1 x2], y as [y1 y2]. match goal with H : next_tw _ _ _ |- _ => destruct H as [H1 H2] end. cbn in H1, H2.
    pose proof (tw_eq _ _ _ _ H1 Hr) as E. destruct (decide (x1 = r)), (decide (y1 = r')); try tauto; [constructor; [exact H1|constructor]|].
    eapply psim_bind; [apply IH, H2|]. intros l l' Hl. constructor; assumption.
  Qed.
  Lemma sim_from_end_to_root fuel a b r r' : tw a b -> tw r r' -> psim ctw (from_end_to_root fuel a r) (from_end_to_root fuel b r').
  Proof. intros H Hr. eapply psim_bind; [apply (sim_until r r' fuel Hr); constructor; exact H|]. intros l l' Hl. apply sim_from_nodes, rev_tw, Hl. Qed.
  Lemma head_tw l l' : Forall2 tw l l' -> option_Forall2 tw (head l) (head l').
  Proof. intros []; constructor; assumption. Qed.
  Lemma sim_set_origin c c' o : ctw c c' -> psim eq (chain_set_origin c o) (chain_set_origin c' o).
  Proof. intros [H _]. eapply psim_bind; [apply psim_expect, head_tw, H|]. intros a b Hab. apply (sim_joint_mod a b (fun j => joint_set_origin j o) Hab). Qed.
  Lemma sim_origin c c' : ctw c c' -> psim eq (chain_origin c) (chain_origin c').
  Proof. intros [H _]. eapply psim_bind; [apply psim_expect, head_tw, H|]. intros a b Hab. apply (sim_joint a b j_origin Hab). Qed.
  Lemma eq_list {A} (p p' : prog T (list A)) : psim (Forall2 eq) p p' -> psim eq p p'.
  Proof. intros H. eapply psim_impl; [exact H|]. intros l l'. apply Forall2_eq. Qed.
  Lemma sim_iter_joints {A} c c' (g : joint T -> prog T A) : (forall j, pure (g j)) -> ctw c c' -> psim eq (iter_joints c g) (iter_joints c' g).
  Proof.
    intros Hg (_ & H & _). apply eq_list. eapply psim_mapM; [exact H|]. intros a b Hab. cbn. split; [exact Hab|]. split; [exact Hab|]. intros n n' Hn.
    rewrite (tw_joint _ _ _ _ _ Hn). eapply psim_bind; [apply psim_pure, Hg|]. intros x _ <-. cbn. auto.
  Qed.
  Lemma sim_iter_links l l' : Forall2 tw l l' -> psim eq (links_loop l) (links_loop l').
  Proof.
    intros H. induction H as [|a b l l' Hab H IH]; cbn [links_loop]; [reflexivity|].
    eapply (psim_bind eq); [apply psim_read; [exact Hab|]; intros n n' Hn; rewrite (tw_link _ _ _ _ _ Hn); reflexivity|]. intros x _ <-. destruct x; [|exact IH].
    cbn. split; [exact Hab|]. split; [exact Hab|]. intros n n' Hn. rewrite (tw_link _ _ _ _ _ Hn). eapply psim_bind; [apply psim_expect, option_eq|].
    intros x _ <-. cbn. split; [exact Hab|]. eapply psim_bind; [exact IH|]. intros xs _ <-. reflexivity.
  Qed.
  Lemma sim_find c c' name : ctw c c' -> psim (option_Forall2 tw) (chain_find c name) (chain_find c' name).
  Proof. intros [H _]. apply psim_findM; [exact H|]. intros a b Hab. apply (sim_joint a b (fun j => String.eqb (j_name j) name) Hab). Qed.
  Lemma sim_positions c c' : ctw c c' -> psim eq (joint_positions c) (joint_positions c').
  Proof. apply sim_iter_joints. intros j. apply pure_expect. Qed.
  Lemma sim_set_positions c c' ps : ctw c c' -> psim eq (set_joint_positions c ps) (set_joint_positions c' ps).
  Proof.
    intros (_ & H & Hd). unfold set_joint_positions. rewrite Hd. destruct (decide _); [|reflexivity]. eapply psim_forM_try; [apply zip_tw, H|].
    intros [a p] [b q] [Hab E]. cbn in *. subst q. apply sim_set, Hab.
  Qed.
  Lemma sim_set_clamped c c' ps : ctw c c' -> psim eq (set_joint_positions_clamped c ps) (set_joint_positions_clamped c' ps).
  Proof.
    intros (_ & H & _). eapply psim_forM; [apply zip_tw, H|]. intros [a p] [b q] [Hab E]. cbn [fst snd] in *. subst q. apply (sim_joint_mod a b (fun j => joint_set_clamped j p) Hab).
  Qed.
  Lemma sim_set_unchecked c c' ps : ctw c c' -> psim eq (set_joint_positions_unchecked c ps) (set_joint_positions_unchecked c' ps).
  Proof.
    intros (_ & H & _). eapply psim_forM; [apply zip_tw, H|]. intros [a p] [b q] [Hab E]. cbn [fst snd] in *. subst q. apply (sim_joint_mod a b (fun j => joint_set_unchecked j p) Hab).
  Qed.
  Ltac step := eapply (psim_bind eq); [|let x := fresh "x" in intros x _ <-].
  Lemma sim_expect_eq {A} (o : option A) m : psim eq (expect (T := T) o m) (expect o m).
  Proof. apply psim_expect, option_eq. Qed.
  Lemma sim_transforms c c' : ctw c c' -> psim eq (update_transforms c) (update_transforms c').
  Proof.
    intros [H _]. apply eq_list. eapply psim_mapM; [exact H|]. intros a b Hab. unfold update_transform. step; [apply sim_parent_wt, Hab|]. step; [apply sim_expect_eq|].
    step; [apply (sim_joint a b local_transform Hab)|]. step; [|reflexivity]. apply (sim_joint_mod a b (fun j => joint_set_wt j (iso_mul x0 x1)) Hab).
  Qed.
  Lemma sim_in_match a b j ptf pv : tw a b -> psim eq (velocity_in_match a j ptf pv) (velocity_in_match b j ptf pv).
  Proof.
    intros H. unfold velocity_in_match. destruct (j_type j); [reflexivity| |].
    - eapply psim_bind; [apply sim_parent, H|]. intros o o' Ho. eapply psim_bind; [apply psim_expect, Ho|]. intros q q' Hq.
      step; [apply (sim_joint q q' (fun j => tr (j_origin j)) Hq)|]. step; [apply sim_wt, H|]. step; [apply sim_expect_eq|].
      step; [apply (sim_joint a b joint_velocity H)|]. step; [apply sim_expect_eq|]. reflexivity.
    - step; [apply sim_wt, H|]. step; [apply sim_expect_eq|]. step; [apply (sim_joint a b joint_velocity H)|]. step; [apply sim_expect_eq|]. reflexivity.
  Qed.
  Lemma sim_velocities c c' : ctw c c' -> psim eq (update_velocities c) (update_velocities c').
  Proof.
    intros H. eapply psim_then; [apply sim_transforms, H|]. destruct H as [H _]. apply eq_list. eapply psim_mapM; [exact H|]. intros a b Hab. unfold update_velocity.
    step; [apply sim_parent_wt, Hab|]. step; [apply sim_expect_eq|]. step; [apply sim_parent_wv, Hab|]. step; [apply sim_expect_eq|].
    cbn [lock get bind psim]. split; [exact Hab|]. split; [exact Hab|]. intros n n' Hn. rewrite (tw_joint _ _ _ _ _ Hn). step; [apply sim_in_match, Hab|].
    cbn [unlock bind psim]. split; [exact Hab|]. step; [|reflexivity]. apply (sim_joint_mod a b (fun j => joint_set_wv j x3) Hab).
  Qed.
  Lemma sim_links c c' : ctw c c' -> psim eq (update_link_transforms c) (update_link_transforms c').
  Proof.
    intros H. eapply psim_then; [apply sim_transforms, H|]. destruct H as [H _]. eapply psim_forM; [exact H|]. intros a b Hab. unfold update_link_transform.
    step; [apply sim_parent_wt, Hab|]. step; [apply sim_expect_eq|]. apply psim_modify; [exact Hab|]. intros n n' []. split; cbn; auto. congruence.
  Qed.
  Lemma sim_clone_node a b : tw a b -> psim tw (clone_node a) (clone_node b).
  Proof.
    intros H. unfold clone_node. cbn [lock get bind psim]. split; [exact H|]. split; [exact H|]. intros n n' Hn. rewrite (tw_joint _ _ _ _ _ Hn). eapply psim_bind; [apply sim_new|].
    intros x y Hxy. cbn [unlock bind psim]. split; [exact H|]. split; [exact H|]. split; [exact H|]. intros m m' Hm. rewrite (tw_link _ _ _ _ _ Hm).
    step; [apply sim_set_link, Hxy|]. cbn. auto.
  Qed.
  Lemma index_tw x x' l l' : tw x x' -> Forall2 tw l l' -> index_of x' l' = index_of x l.
  Proof.
    intros Hx H. induction H as [|a b l l' Hab H IH]; cbn; [reflexivity|]. pose proof (tw_eq _ _ _ _ Hab Hx) as E.
    destruct (decide (a = x)), (decide (b = x')); try tauto. rewrite IH. reflexivity.
  Qed.
  Lemma sim_connect l l' nl nl' a a' b b' : Forall2 tw l l' -> Forall2 tw nl nl' -> tw a a' -> tw b b' -> psim eq (clone_connect l nl (a, b)) (clone_connect l' nl' (a', b')).
  Proof.
    intros Hl Hn Ha Hb. assert (Hix : forall i, option_Forall2 tw (nl !! i) (nl' !! i)). { intros i. apply Forall2_lookup. exact Hn. }
    unfold clone_connect. cbn [fst snd]. eapply psim_bind; [apply sim_parent, Ha|]. intros o o' Ho. step.
    - destruct Ho as [p p' Hp|]; [|reflexivity]. rewrite (index_tw p p' l l' Hp Hl). step; [apply sim_expect_eq|]. eapply psim_bind; [apply psim_expect, Hix|]. intros q q' Hq.
      apply sim_set_parent; assumption.
    - eapply psim_bind; [apply sim_mimic_parent, Ha|]. intros m m' Hm. destruct Hm as [p p' Hp|]; [|reflexivity]. rewrite (index_tw p p' l l' Hp Hl). step; [apply sim_expect_eq|].
      eapply psim_bind; [apply psim_expect, Hix|]. intros q q' Hq. cbn [lock get bind psim]. split; [exact Ha|]. split; [exact Ha|]. intros n n' Hnn. rewrite (tw_mimic _ _ _ _ _ Hnn).
      step; [apply sim_expect_eq|]. eapply psim_then; [apply sim_set_mimic_parent; assumption|]. cbn. auto.
  Qed.
  Lemma sim_assert b m : psim eq (assert_ (T := T) b m) (assert_ b m).
  Proof. destruct b; reflexivity. Qed.
  Lemma sim_clone fuel c c' : kids = true -> ctw c c' -> psim ctw (chain_clone fuel c) (chain_clone fuel c').
  Proof.
    intros Hk (H & _). unfold chain_clone. revert H. generalize (c_nodes c), (c_nodes c'). intros l l' H. pose proof H as Hall. destruct H as [|a b l l' Hab H]; [repeat constructor|].
    step; [apply sim_is_root, Hab|]. step; [apply sim_assert|]. eapply psim_bind; [eapply psim_mapM; [exact Hall|]; apply sim_clone_node|]. intros nl nl' Hn.
    eapply psim_then.
    - eapply (psim_forM (fun x y => tw (fst x) (fst y) /\ tw (snd x) (snd y))).
      + clear - Hall Hn. revert nl nl' Hn. induction Hall; intros nl nl' []; cbn; constructor; cbn; auto.
      + intros [u v] [u' v'] [Hx Hy]. cbn in Hx, Hy. apply sim_connect; assumption.
    - eapply psim_bind; [apply psim_expect, head_tw, Hn|]. intros r r' Hr. step; [apply sim_is_root, Hr|]. step; [apply sim_assert|]. apply sim_from_root; assumption.
  Qed.
  Lemma elem_tw a a' l l' : tw a a' -> Forall2 tw l l' -> a ∈ l <-> a' ∈ l'.
  Proof.
    intros Ha H. induction H as [|x x' l l' Hx H IH]; [split; intros E; inversion E|]. rewrite !elem_of_cons, IH, (tw_eq _ _ _ _ Ha Hx). reflexivity.
  Qed.
  Lemma sim_indent fuel : kids = true -> forall l l' a b level, Forall2 tw l l' -> tw a b ->
    psim eq (fmt_with_indent_level fuel l a level) (fmt_with_indent_level fuel l' b level).
  Proof.
    intros Hk. induction fuel as [|fuel IH]; intros l l' a b level Hl Hab; cbn [fmt_with_indent_level]; [exact I|]. step.
    - pose proof (elem_tw _ _ _ _ Hab Hl). destruct (decide (a ∈ l)), (decide (b ∈ l')); try tauto; [|reflexivity]. step; [apply sim_fmt, Hab|]. reflexivity.
    - cbn [lock get bind psim]. split; [exact Hab|]. split; [exact Hab|]. intros n n' Hn. eapply psim_bind; [eapply psim_mapM; [apply (tw_children _ _ _ _ _ Hn Hk)|]|].
      + intros x' y' Hxy. apply IH; assumption.
      + intros xs xs' E. apply Forall2_eq in E. subst xs'. cbn. auto.
  Qed.
  Lemma sim_chain_fmt fuel c c' : kids = true -> ctw c c' -> psim eq (chain_fmt fuel c) (chain_fmt fuel c').
  Proof. intros Hk (H & _). eapply psim_bind; [apply psim_expect, head_tw, H|]. intros a b Hab. apply sim_indent; assumption. Qed.
  Lemma sim_one_child l l' : kids = true -> Forall2 tw l l' -> psim eq (all_one_child l) (all_one_child l').
  Proof.
    intros Hk H. induction H as [|a b l l' Hab H IH]; cbn [all_one_child]; [reflexivity|]. eapply psim_bind; [apply sim_children; assumption|]. intros x y Hxy.
    rewrite (Forall2_length _ _ _ Hxy). destruct (decide _); [exact IH|reflexivity].
  Qed.
  Lemma sim_try_new ovf c c' : kids = true -> ctw c c' -> psim (option_Forall2 ctw) (try_new ovf c) (try_new ovf c').
  Proof.
    intros Hk H. destruct H as (H & Hr). unfold try_new. rewrite <- (Forall2_length _ _ _ H). step; [apply psim_pure, pure_usize|].
    step; [apply sim_one_child; [exact Hk|]; apply Forall2_take, H|]. cbn. destruct x0; constructor. split; assumption.
  Qed.
  Lemma sim_end_fold l l' : Forall2 tw l l' -> forall acc, psim eq (end_fold acc l) (end_fold acc l').
  Proof. intros H. induction H as [|a b l l' Hab H IH]; intros acc; cbn [end_fold]; [reflexivity|]. step; [apply (sim_joint a b local_transform Hab)|]. apply IH. Qed.
  Lemma sim_end c c' : ctw c c' -> psim eq (end_transform c) (end_transform c').
  Proof. intros [H _]. apply sim_end_fold, H. Qed.
  Lemma sim_jacobian c c' : ctw c c' -> psim eq (jacobian c) (jacobian c').
  Proof.
    intros H. unfold jacobian. step; [apply sim_end, H|]. eapply psim_then; [apply sim_transforms, H|]. step.
    - apply sim_iter_joints; [|exact H]. intros j. apply pure_bind; [apply pure_expect|]. intros t. unfold jacobian_column. destruct (j_type j); exact I.
    - destruct H as (_ & _ & Hd). unfold dof. rewrite Hd. destruct (decide _); reflexivity.
  Qed.
  Lemma sim_com c c' : ctw c c' -> psim eq (center_of_mass c) (center_of_mass c').
  Proof.
    intros H. unfold center_of_mass. eapply psim_then; [apply sim_transforms, H|]. destruct H as [H _]. step; [|reflexivity]. generalize (v0, szero). induction H as [|a b l l' Hab H IH]; intros acc; cbn [com_loop]; [reflexivity|].
    step; [|apply IH]. unfold com_step. step; [apply sim_wt, Hab|]. destruct x; [|reflexivity]. apply psim_read; [exact Hab|]. intros n n' Hn. rewrite (tw_link _ _ _ _ _ Hn). reflexivity.
  Qed.
  (** ** the solver *)
  Lemma sim_one_loop ovf la sv c c' target ops idx : ctw c c' -> psim eq (solve_one_loop_with_constraints ovf la sv c target ops idx) (solve_one_loop_with_constraints ovf la sv c' target ops idx).
  Proof.
    intros H. unfold solve_one_loop_with_constraints. step; [apply sim_positions, H|]. assert (Hd : dof c' = dof c) by apply H. rewrite Hd. step; [apply psim_pure, pure_usize|].
    step; [apply sim_end, H|]. step; [apply sim_jacobian, H|]. step; [apply psim_pure, pure_remove_rows|]. step; [apply psim_pure, pure_columns|]. step; [apply psim_pure, pure_new|].
    destruct x5; [|reflexivity]. eapply psim_then; [apply sim_set_clamped, H|]. step; [apply sim_end, H|]. reflexivity.
  Qed.
  Lemma sim_ignored c c' names : ctw c c' -> psim eq (ignored_indices c names) (ignored_indices c' names).
  Proof.
    intros H. induction names as [|nm names IH]; cbn [ignored_indices]; [reflexivity|]. step.
    - apply psim_positionM; [apply H|]. intros a b Hab. apply (sim_joint a b (fun j => String.eqb (j_name j) nm) Hab).
    - destruct x; [|reflexivity]. step; [exact IH|]. reflexivity.
  Qed.
  Lemma sim_loop ovf la sv c c' target ops idx orig n : ctw c c' -> forall last, psim eq (ik_loop ovf la sv c target ops idx orig n last) (ik_loop ovf la sv c' target ops idx orig n last).
  Proof.
    intros H. induction n as [|n IH]; intros last; cbn [ik_loop].
    - step; [apply sim_set_positions, H|]. destruct x; [|reflexivity]. step; [apply sim_expect_eq|]. reflexivity.
    - step; [apply sim_one_loop, H|]. destruct x; [|reflexivity]. cbn zeta. destruct (reached _ _); [|apply IH]. step; [apply sim_positions, H|].
      eapply psim_then; [apply sim_set_clamped, H|]. reflexivity.
  Qed.
  Lemma sim_solve ovf la sv c c' target cs : ctw c c' -> psim eq (solve_with_constraints ovf la sv c target cs) (solve_with_constraints ovf la sv c' target cs).
  Proof.
    intros H. unfold solve_with_constraints. step; [apply sim_positions, H|]. step.
    - unfold solve_with_constraints_internal. step; [apply sim_positions, H|]. assert (Hd : dof c' = dof c) by apply H. rewrite Hd. step; [apply psim_pure, pure_usize|].
      destruct (decide _); [reflexivity|]. step; [apply sim_ignored, H|]. destruct x2; [|reflexivity]. apply sim_loop, H.
    - destruct (is_err x0); [|reflexivity]. step; [apply sim_set_positions, H|]. destruct x1; reflexivity.
  Qed.

  (** ** every call *)
  Lemma map_tw l : (forall a, a ∈ l -> D a) -> Forall2 tw l (map f l).
  Proof.
    induction l as [|a l IH]; intros H; cbn; constructor.
    - split; [apply H; left|reflexivity].
    - apply IH. intros b Hb. apply H. right. exact Hb.
  Qed.
  Lemma chain_to_tw c : (forall a, a ∈ chain_handles c -> D a) -> ctw c (chain_to f c).
  Proof.
    intros H. split; [|split; [|reflexivity]]; apply map_tw; intros a Ha; apply H; unfold chain_handles; apply elem_of_app; auto.
  Qed.
  Lemma sim_call {R} (k : api T R) : (reads_children k = true -> kids = true) -> (forall a, a ∈ args k -> D a) ->
    psim (same_answer D f k) (interp k) (interp (call_to f k)).
  Proof.
    intros Hk H. destruct k; cbn [args] in H; cbn [reads_children] in Hk; cbn [interp call_to same_answer];
      try (assert (Hk' : kids = true) by (apply Hk; reflexivity));
      try (assert (Ha : tw a (f a)) by (split; [apply H; left|reflexivity]));
      try (assert (Hc : ctw c (chain_to f c)) by (apply chain_to_tw, H));
      try (assert (Hself : tw self (f self)) by (split; [apply H; left|reflexivity]));
      try (assert (Hparent : tw parent (f parent)) by (split; [apply H; right; left|reflexivity])).
    - apply sim_new.
    - apply (sim_joint a _ (fun j => j) Ha).
    - apply (sim_joint a _ joint_position Ha).
    - apply sim_parent, Ha.
    - apply sim_children; assumption.
    - apply sim_ancestors. constructor. exact Ha.
    - apply sim_descendants; auto.
    - apply sim_set_parent; assumption.
    - apply sim_remove_parent; assumption.
    - apply sim_is_root, Ha.
    - apply sim_is_end; assumption.
    - apply (sim_joint_mod a _ (fun j => joint_set_origin j o) Ha).
    - apply (sim_joint a _ j_origin Ha).
    - apply sim_set, Ha.
    - apply (sim_joint_mod a _ (fun j => joint_set_clamped j p) Ha).
    - apply (sim_joint_mod a _ (fun j => joint_set_unchecked j p) Ha).
    - apply sim_wt, Ha.
    - apply sim_wv, Ha.
    - apply sim_mimic_parent, Ha.
    - apply sim_set_mimic_parent; assumption.
    - apply sim_set_link, Ha.
    - apply sim_link, Ha.
    - apply sim_fmt, Ha.
    - apply sim_from_nodes, map_tw, H.
    - apply sim_from_root; [assumption|]. split; [apply H; left|reflexivity].
    - apply sim_from_end. split; [apply H; left|reflexivity].
    - apply sim_from_end_to_root; (split; [|reflexivity]); apply H; [left|right; left].
    - apply sim_set_origin, Hc.
    - apply sim_origin, Hc.
    - apply sim_iter_joints; [|exact Hc]. intros j. exact I.
    - apply sim_iter_links, Hc.
    - apply sim_find, Hc.
    - apply sim_positions, Hc.
    - apply sim_set_positions, Hc.
    - apply sim_set_clamped, Hc.
    - apply sim_set_unchecked, Hc.
    - apply sim_transforms, Hc.
    - apply sim_velocities, Hc.
    - apply sim_links, Hc.
    - apply sim_clone; assumption.
    - apply sim_chain_fmt; assumption.
    - apply sim_try_new; assumption.
    - apply sim_end, Hc.
    - apply sim_jacobian, Hc.
    - apply sim_com, Hc.
    - apply sim_solve, Hc.
    - apply sim_solve, Hc.
  Qed.
  Lemma sim_client {A} (cl cl' : client T A) : client_twin kids D f cl cl' -> psim eq (denote cl) (denote cl').
  Proof.
    intros H. induction H as [x|R k next next' Hk Ha _ IH]; cbn [denote]; [reflexivity|]. eapply psim_bind; [apply sim_call; assumption|]. exact IH.
  Qed.
  Theorem twin_lemma {A} t (cl cl' : client T A) s s' : client_twin kids D f cl cl' -> stw s s' -> otw eq (run t (denote cl) s) (run t (denote cl') s').
  Proof. intros H. apply psim_run, sim_client, H. Qed.
End IsoProofs.
