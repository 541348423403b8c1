(** * C63: queries report the stored state, setters are read back *)
From Coq Require Import String ZArith Floats.SpecFloat.
From stdpp Require Import gmap.
From Verif Require Import Scalar ScalarF Geometry Joint Link Prog NodeM ChainM RunLemmas NodeProofs SpecNode PropBuilder Ex.

Section C63.
  Context {T : Type} `{Sc : Scalar T}.
  Implicit Types (h : gmap nat (node T)).

  (** a weak reference upgrades when the node it points to is still alive *)
  Definition alive_ref h (o : option nat) : option nat :=
    match o with Some p => match h !! p with Some _ => Some p | None => None end | None => None end.

  (** C63: on any node of any heap no query panics, blocks or changes anything, and each
      returns the stored field; a fixed joint has no position *)
  Theorem C63_queries t h nx a n : h !! a = Some n ->
    let returns {A} (p : prog T A) (x : A) := run t p (quiet h nx) = Done x (quiet h nx) in
    returns (node_joint_position a) (match j_type (n_joint n) with Fixed => None | _ => Some (j_position (n_joint n)) end) /\
    returns (node_origin a) (j_origin (n_joint n)) /\
    returns (node_world_transform a) (j_wt_cache (n_joint n)) /\
    returns (node_world_velocity a) (j_wv_cache (n_joint n)) /\
    returns (node_link a) (n_link n) /\
    returns (node_children a) (n_children n) /\
    returns (node_parent a) (alive_ref h (n_parent n)) /\
    returns (node_mimic_parent a) (alive_ref h (n_mimic_parent n)) /\
    (exists b, returns (node_is_root a) b /\ (b = true <-> n_parent n = None)) /\
    (exists b, returns (node_is_end a) b /\ (b = true <-> n_children n = [])).
  Proof.
    intros Hn returns.
    assert (Hr : forall A (g : node T -> A), returns A (read a g) (g n)).
    { intros A g. unfold returns, quiet. apply run_read; [exact Hn|apply lookup_empty]. }
    assert (Hu : forall o, live h o = alive_ref h o) by (intros [p|]; [cbn; destruct (h !! p); reflexivity|reflexivity]).
    split; [apply (Hr _ (fun n => joint_position (n_joint n)))|].
    split; [apply (Hr _ (fun n => j_origin (n_joint n)))|]. split; [apply (Hr _ (fun n => j_wt_cache (n_joint n)))|].
    split; [apply (Hr _ (fun n => j_wv_cache (n_joint n)))|]. split; [apply (Hr _ n_link)|]. split; [apply (Hr _ n_children)|].
    split; [rewrite <- Hu; apply run_node_parent; [exact Hn|apply lookup_empty]|]. split.
    { unfold returns, node_mimic_parent, quiet. rewrite (run_lock_bind t a _ h nx ∅ n Hn (lookup_empty a)).
      rewrite (run_get_bind t a _ h nx _ n Hn) by apply lookup_insert. destruct (n_mimic_parent n) as [p|]; cbn [alive_ref].
      - rewrite run_upgrade_bind, run_unlock_bind by apply lookup_insert. rewrite delete_insert by apply lookup_empty.
        destruct (h !! p) eqn:E; [rewrite bool_decide_true by eauto|rewrite bool_decide_false by (intros [? ?]; discriminate)]; reflexivity.
      - rewrite run_unlock_bind by apply lookup_insert. rewrite delete_insert by apply lookup_empty. reflexivity. }
    split; eexists; (split; [apply (Hr _ (fun n => _))|]).
    - cbn. destruct (n_parent n); split; congruence.
    - cbn. destruct (n_children n); split; congruence.
  Qed.

  (** C63: what a setter stores is what the next query returns, and no third node changes *)
  Theorem C63_read_back t h nx a b n m : h !! a = Some n -> h !! b = Some m ->
    let ends (p : prog T unit) (l : list nat) (P : gmap nat (node T) -> Prop) :=
      exists h', run t p (quiet h nx) = Done tt (quiet h' nx) /\ (forall x, x ∉ l -> h' !! x = h !! x) /\ P h' in
    let says h' {A} (p : prog T A) (x : A) := run t p (quiet h' nx) = Done x (quiet h' nx) in
    (forall o, ends (node_set_origin a o) [a] (fun h' => says h' (node_origin a) o /\ says h' (node_world_transform a) None /\
       says h' (node_world_velocity a) (j_wv_cache (n_joint n)) /\
       says h' (node_joint_position a) (joint_position (n_joint n)))) /\
    (forall l, ends (node_set_link a l) [a] (fun h' => says h' (node_link a) l /\ says h' (node_origin a) (j_origin (n_joint n)) /\
       says h' (node_world_transform a) (j_wt_cache (n_joint n)))) /\
    ends (node_set_parent a b) [a; b] (fun h' => says h' (node_parent a) (Some b) /\ says h' (node_is_root a) false /\
       says h' (node_is_end b) false /\ says h' (node_children b) (n_children m ++ [a])) /\
    ends (node_remove_parent a b) [a; b] (fun h' => says h' (node_parent a) None /\ says h' (node_is_root a) true /\
       exists l, says h' (node_children b) l /\ forall x, x ∈ l <-> x ∈ n_children m /\ x <> a) /\
    (forall mm, ends (node_set_mimic_parent a b mm) [a; b] (fun h' => says h' (node_mimic_parent a) (Some b) /\
       says h' (node_parent a) (alive_ref h (n_parent n)))).
  Proof.
    intros Hn Hm ends says.
    assert (Hq : forall h' n', h' !! a = Some n' -> forall A (g : node T -> A), says h' A (read a g) (g n')).
    { intros h' n' Hn' A g. unfold says, quiet. apply run_read; [exact Hn'|apply lookup_empty]. }
    assert (Hqb : forall h' n', h' !! b = Some n' -> forall A (g : node T -> A), says h' A (read b g) (g n')).
    { intros h' n' Hn' A g. unfold says, quiet. apply run_read; [exact Hn'|apply lookup_empty]. }
    assert (M : forall f h x y, h !! x = Some y -> run t (modify x f) (quiet h nx) = Done tt (quiet (<[x := f y]> h) nx)).
    { intros f h0 x y Hx. unfold quiet. apply run_modify; [exact Hx|apply lookup_empty]. }
    assert (F1 : forall y x, x ∉ [a] -> <[a := y]> h !! x = h !! x) by (intros y x Hx; apply lookup_insert_ne; set_solver).
    split; [|split; [|split; [|split]]].
    - intros o. eexists. split; [apply M, Hn|]. split; [apply F1|]. pose proof (lookup_insert h a (set_n_joint n (joint_set_origin (n_joint n) o))) as E.
      repeat split; [exact (Hq _ _ E _ (fun n => j_origin (n_joint n)))|exact (Hq _ _ E _ (fun n => j_wt_cache (n_joint n)))|
        exact (Hq _ _ E _ (fun n => j_wv_cache (n_joint n)))|exact (Hq _ _ E _ (fun n => joint_position (n_joint n)))].
    - intros l. eexists. split; [apply M, Hn|]. split; [apply F1|]. pose proof (lookup_insert h a (set_n_link n l)) as E.
      repeat split; [exact (Hq _ _ E _ n_link)|exact (Hq _ _ E _ (fun n => j_origin (n_joint n)))|exact (Hq _ _ E _ (fun n => j_wt_cache (n_joint n)))].
    - set (n1 := set_n_parent n (Some b)). set (h1 := <[a := n1]> h).
      assert (Hb : exists m1, h1 !! b = Some m1 /\ n_children m1 = n_children m).
      { unfold h1. destruct (decide (a = b)) as [->|Hab]; [rewrite lookup_insert; exists n1; split; [reflexivity|]; assert (m = n) as -> by congruence; reflexivity|].
        rewrite lookup_insert_ne by exact Hab. eauto. }
      destruct Hb as (m1 & Hm1 & Ec). set (m2 := set_n_children m1 (n_children m1 ++ [a])). exists (<[b := m2]> h1).
      split; [unfold node_set_parent; rewrite run_bind, (M _ h a n Hn); cbn [obind]; rewrite (M _ h1 b m1 Hm1); reflexivity|].
      split; [intros x Hx; unfold h1; rewrite !lookup_insert_ne by set_solver; reflexivity|].
      assert (Ha2 : exists n2, <[b := m2]> h1 !! a = Some n2 /\ n_parent n2 = Some b).
      { destruct (decide (a = b)) as [->|Hab]; [rewrite lookup_insert; eexists; split; [reflexivity|]; unfold h1 in Hm1; rewrite lookup_insert in Hm1; injection Hm1 as <-; reflexivity|].
        rewrite lookup_insert_ne by congruence. unfold h1. rewrite lookup_insert. eauto. }
      destruct Ha2 as (n2 & Hn2 & Ep). pose proof (lookup_insert h1 b m2) as Hb2.
      destruct (C63_queries t _ nx a n2 Hn2) as (_ & _ & _ & _ & _ & _ & Q & _). rewrite Ep in Q. cbn [alive_ref] in Q. rewrite Hb2 in Q.
      split; [exact Q|]. split; [pose proof (Hq _ _ Hn2 _ (fun n => match n_parent n with None => true | Some _ => false end)) as Q1; cbn beta in Q1; rewrite Ep in Q1; exact Q1|].
      split; [|pose proof (Hqb _ _ Hb2 _ n_children) as Q2; cbn [m2 set_n_children n_children] in Q2; rewrite Ec in Q2; exact Q2].
      pose proof (Hqb _ _ Hb2 _ (fun n => match n_children n with [] => true | _ => false end)) as Q2. cbn beta in Q2. cbn [m2 set_n_children n_children] in Q2.
      destruct (n_children m1); exact Q2.
    - set (n1 := set_n_parent n None). set (h1 := <[a := n1]> h).
      assert (Hb : exists m1, h1 !! b = Some m1 /\ n_children m1 = n_children m).
      { unfold h1. destruct (decide (a = b)) as [->|Hab]; [rewrite lookup_insert; exists n1; split; [reflexivity|]; assert (m = n) as -> by congruence; reflexivity|].
        rewrite lookup_insert_ne by exact Hab. eauto. }
      destruct Hb as (m1 & Hm1 & Ec). set (m2 := set_n_children m1 (filter (fun x => x <> a) (n_children m1))). exists (<[b := m2]> h1).
      split; [unfold node_remove_parent; rewrite run_bind, (M _ h a n Hn); cbn [obind]; rewrite (M _ h1 b m1 Hm1); reflexivity|].
      split; [intros x Hx; unfold h1; rewrite !lookup_insert_ne by set_solver; reflexivity|].
      assert (Ha2 : exists n2, <[b := m2]> h1 !! a = Some n2 /\ n_parent n2 = None).
      { destruct (decide (a = b)) as [->|Hab]; [rewrite lookup_insert; eexists; split; [reflexivity|]; unfold h1 in Hm1; rewrite lookup_insert in Hm1; injection Hm1 as <-; reflexivity|].
        rewrite lookup_insert_ne by congruence. unfold h1. rewrite lookup_insert. eauto. }
      destruct Ha2 as (n2 & Hn2 & Ep). pose proof (lookup_insert h1 b m2) as Hb2.
      destruct (C63_queries t _ nx a n2 Hn2) as (_ & _ & _ & _ & _ & _ & Q & _). rewrite Ep in Q.
      split; [exact Q|]. split; [pose proof (Hq _ _ Hn2 _ (fun n => match n_parent n with None => true | Some _ => false end)) as Q1; cbn beta in Q1; rewrite Ep in Q1; exact Q1|].
      exists (n_children m2). split; [exact (Hqb _ _ Hb2 _ n_children)|]. intros x. unfold m2. cbn [set_n_children n_children]. rewrite Ec, elem_of_list_filter. tauto.
    - intros mm. set (n1 := set_n_mimic_parent n (Some b)). set (h1 := <[a := n1]> h).
      assert (Hb : exists m1, h1 !! b = Some m1).
      { unfold h1. destruct (decide (a = b)) as [->|Hab]; [rewrite lookup_insert; eauto|]. rewrite lookup_insert_ne by exact Hab. eauto. }
      destruct Hb as (m1 & Hm1). set (m2 := set_n_mimic_children m1 (n_mimic_children m1 ++ [a])). set (h2 := <[b := m2]> h1).
      assert (Ha2 : exists n2, h2 !! a = Some n2 /\ n_mimic_parent n2 = Some b /\ n_parent n2 = n_parent n).
      { unfold h2. destruct (decide (a = b)) as [->|Hab]; [rewrite lookup_insert; eexists; split; [reflexivity|]; unfold h1 in Hm1; rewrite lookup_insert in Hm1; injection Hm1 as <-; split; reflexivity|].
        rewrite lookup_insert_ne by congruence. unfold h1. rewrite lookup_insert. eauto. }
      destruct Ha2 as (n2 & Hn2 & Ep & Epp). exists (<[a := set_n_mimic n2 (Some mm)]> h2).
      split; [unfold node_set_mimic_parent; rewrite run_bind, (M _ h a n Hn); cbn [obind]; rewrite run_bind, (M _ h1 b m1 Hm1); cbn [obind]; rewrite (M _ h2 a n2 Hn2); reflexivity|].
      split; [intros x Hx; unfold h2, h1; rewrite !lookup_insert_ne by set_solver; reflexivity|].
      set (h3 := <[a := set_n_mimic n2 (Some mm)]> h2).
      assert (Ha3 : h3 !! a = Some (set_n_mimic n2 (Some mm))) by apply lookup_insert.
      assert (Hl : forall x, is_Some (h3 !! x) <-> is_Some (h !! x)).
      { intros x. unfold h3, h2, h1. rewrite !lookup_insert_is_Some. split; [intros [<-|[_ [<-|[_ [<-|[_ H]]]]]]; eauto|]. intros H.
        destruct (decide (a = x)); [left; assumption|right; split; [assumption|]]. destruct (decide (b = x)); [left; assumption|right; split; [assumption|]]. right. auto. }
      destruct (C63_queries t h3 nx a _ Ha3) as (_ & _ & _ & _ & _ & _ & Q & Q' & _).
      cbn [set_n_mimic n_mimic_parent n_parent] in Q, Q'. rewrite Ep in Q'. rewrite Epp in Q. cbn [alive_ref] in Q'.
      split.
      + destruct (proj2 (Hl b) ltac:(eauto)) as [x Hx]. rewrite Hx in Q'. exact Q'.
      + destruct (n_parent n) as [q|]; [|exact Q]. cbn [alive_ref] in *. pose proof (Hl q) as Hlq.
        destruct (h3 !! q), (h !! q); try exact Q; exfalso; destruct Hlq as [L1 L2]; [destruct (L1 ltac:(eauto)) as [? ?]|destruct (L2 ltac:(eauto)) as [? ?]]; discriminate.
  Qed.

  (** ** the elements of a link: calls of [set_origin], [set_world_transform] and
      [clear_world_transform] *)
  Inductive elem_call := ESetOrigin (o : iso T) | ESetWorld (w : iso T) | EClear.
  Definition inertial_call (x : inertial T) (c : elem_call) : inertial T :=
    match c with ESetOrigin o => inertial_set_origin x o | ESetWorld w => inertial_set_wt x w | EClear => inertial_clear_wt x end.
  Definition visual_call (x : visual T) (c : elem_call) : visual T :=
    match c with ESetOrigin o => visual_set_origin x o | ESetWorld w => visual_set_wt x w | EClear => visual_clear_wt x end.
  Definition collision_call (x : collision T) (c : elem_call) : collision T :=
    match c with ESetOrigin o => collision_set_origin x o | ESetWorld w => collision_set_wt x w | EClear => collision_clear_wt x end.
  Definition sets_origin (c : elem_call) := match c with ESetOrigin o => Some o | _ => None end.
  (** every call decides the cached world transform: moving the element forgets it *)
  Definition sets_world (c : elem_call) := match c with ESetWorld w => Some (Some w) | _ => Some None end.

  (** C63: after any sequence of calls on a link's elements, the origin is the one last set,
      the world transform is known exactly if the last call set it, the rest is untouched *)
  Theorem C63_elements cs :
    (forall x : inertial T, let x' := fold_left inertial_call cs x in
      last_set sets_origin (in_origin x) cs (in_origin x') /\ last_set sets_world (in_wt x) cs (in_wt x') /\
      in_mass x' = in_mass x /\ in_inertia x' = in_inertia x) /\
    (forall x : visual T, let x' := fold_left visual_call cs x in
      last_set sets_origin (vi_origin x) cs (vi_origin x') /\ last_set sets_world (vi_wt x) cs (vi_wt x') /\
      vi_name x' = vi_name x /\ vi_geometry x' = vi_geometry x /\ vi_material x' = vi_material x) /\
    (forall x : collision T, let x' := fold_left collision_call cs x in
      last_set sets_origin (co_origin x) cs (co_origin x') /\ last_set sets_world (co_wt x) cs (co_wt x') /\
      co_name x' = co_name x /\ co_geometry x' = co_geometry x).
  Proof.
    assert (K : forall X B (call : X -> elem_call -> X) (g : X -> B), (forall x c, g (call x c) = g x) -> forall x, g (fold_left call cs x) = g x).
    { intros X B call g H. induction cs as [|c l IH]; intros x; [reflexivity|]. cbn. rewrite IH. apply H. }
    split; [|split]; intros x x'; (split; [|split]);
      [apply (fold_last_set sets_origin in_origin inertial_call)|apply (fold_last_set sets_world in_wt inertial_call)|
      |apply (fold_last_set sets_origin vi_origin visual_call)|apply (fold_last_set sets_world vi_wt visual_call)|
      |apply (fold_last_set sets_origin co_origin collision_call)|apply (fold_last_set sets_world co_wt collision_call)|];
      try (intros y []; reflexivity); repeat split; apply K; intros y []; reflexivity.
  Qed.
  (** a new element has the origin it was given and no world transform *)
  Theorem C63_new_elements n o g mt m i : 
    let v := visual_new n o g mt in let c := collision_new n o g in let x := inertial_new o m i in let y := inertial_from_mass m in
    (vi_name v = n /\ vi_origin v = o /\ vi_geometry v = g /\ vi_material v = mt /\ vi_wt v = None) /\
    (co_name c = n /\ co_origin c = o /\ co_geometry c = g /\ co_wt c = None) /\
    (in_origin x = o /\ in_mass x = m /\ in_inertia x = i /\ in_wt x = None) /\
    (in_origin y = iso1 /\ in_mass y = m /\ in_inertia y = M3 sone szero szero szero sone szero szero szero sone /\ in_wt y = None).
  Proof. repeat split. Qed.
End C63.
Print Assumptions C63_queries.
Print Assumptions C63_read_back.
Print Assumptions C63_elements.
Print Assumptions C63_new_elements.

(** a fixed and a sliding joint; the slider's parent is the fixed one *)
Definition pair : prog spec_float unit := a <- node_new (fix_ "base") ;; b <- node_new (lin "arm" 0 5) ;; node_set_parent b a.
Example C63_case : let s := after pair in
  (exists n, heap s !! 0 = Some n) /\ (exists n, heap s !! 1 = Some n) /\
  (fst <$> final (run 0 (node_joint_position 0) s)) = Some None /\ (fst <$> final (run 0 (node_joint_position 1) s)) = Some (Some (f 0)) /\
  (fst <$> final (run 0 (node_is_root 0) s)) = Some true /\ (fst <$> final (run 0 (node_is_root 1) s)) = Some false /\
  (fst <$> final (run 0 (node_is_end 0) s)) = Some false /\ (fst <$> final (run 0 (node_is_end 1) s)) = Some true /\
  (fst <$> final (run 0 (node_parent 1) s)) = Some (Some 0).
Proof. cbn zeta. split; [eexists; vm_compute; reflexivity|]. split; [eexists; vm_compute; reflexivity|]. vm_compute. repeat split. Qed.
Example C63_case_elements : let v := fold_left visual_call [ESetWorld (trans 1 2 3); ESetOrigin (trans 4 5 6)] (visual_new "v" iso1 (GSphere (f 1)) (Material "m" (Color (f 0) (f 0) (f 0) (f 0)) (Texture ""))) in
  vi_origin v = trans 4 5 6 /\ vi_wt v = None.
Proof. vm_compute. split; reflexivity. Qed.
