(** * Threads working on separate robots: proofs *)
From Coq Require Import String NArith.
From stdpp Require Import gmap.
From Verif Require Import Scalar Geometry Joint Link Prog NodeM ChainM FuncsM IkM Safe SafeSound SafeNode SafeChain
  Api ApiProofs ApiSound SpecHist HistProofs SpecApart.

(** ** Programs that create no node *)
Section Nonew.
  Context {T : Type}.

  Fixpoint nonew {A} (p : prog T A) : Prop :=
    match p with
    | Ret _ | Panic _ | NoFuel => True
    | Lock _ k | Unlock _ k | Put _ _ k => nonew k
    | Get _ k => forall n, nonew (k n)
    | Upgrade _ k => forall b, nonew (k b)
    | New _ _ => False
    end.
  Lemma nn_bind {A B} (p : prog T A) (f : A -> prog T B) : nonew p -> (forall x, nonew (f x)) -> nonew (bind p f).
  Proof. intros Hp Hf. induction p; cbn in *; auto. Qed.
  Lemma nn_read {A} a (f : node T -> A) : nonew (read a f).
  Proof. cbn. auto. Qed.
  Lemma nn_modify a (f : node T -> node T) : nonew (modify a f).
  Proof. cbn. auto. Qed.
  Lemma nn_expect {A} (o : option A) m : nonew (expect o m : prog T A).
  Proof. destruct o; exact I. Qed.
  Lemma nn_assert b m : nonew (assert_ b m : prog T unit).
  Proof. destruct b; exact I. Qed.
  Lemma nn_mapM {A B} (f : A -> prog T B) l : (forall x, nonew (f x)) -> nonew (mapM f l).
  Proof. intros Hf. induction l; cbn; [exact I|]. apply nn_bind; [auto|]. intros y. apply nn_bind; [auto|]. intros ys. exact I. Qed.
  Lemma nn_filterM {A} (f : A -> prog T bool) l : (forall x, nonew (f x)) -> nonew (filterM f l).
  Proof. intros Hf. induction l; cbn; [exact I|]. apply nn_bind; [auto|]. intros y. apply nn_bind; [auto|]. intros ys. exact I. Qed.
  Lemma nn_forM {A} (f : A -> prog T unit) l : (forall x, nonew (f x)) -> nonew (forM_ f l).
  Proof. intros Hf. induction l; cbn; [exact I|]. apply nn_bind; auto. Qed.
  Lemma nn_forM_try {A} (f : A -> prog T (result T unit)) l : (forall x, nonew (f x)) -> nonew (forM_try f l).
  Proof. intros Hf. induction l; cbn; [exact I|]. apply nn_bind; [auto|]. intros [|]; [auto|exact I]. Qed.
  Lemma nn_findM {A} (f : A -> prog T bool) l : (forall x, nonew (f x)) -> nonew (findM f l).
  Proof. intros Hf. induction l; cbn; [exact I|]. apply nn_bind; [auto|]. intros [|]; [exact I|auto]. Qed.
  Lemma nn_positionM {A} (f : A -> prog T bool) l : (forall x, nonew (f x)) -> nonew (positionM f l).
  Proof.
    intros Hf. induction l; cbn; [exact I|]. apply nn_bind; [auto|]. intros [|]; [exact I|].
    apply nn_bind; [auto|]. intros x. exact I.
  Qed.
  Lemma nn_lock a : nonew (lock a : prog T unit). Proof. exact I. Qed.
  Lemma nn_unlock a : nonew (unlock a : prog T unit). Proof. exact I. Qed.
  Lemma nn_get a : nonew (get a : prog T _). Proof. intros n. exact I. Qed.
  Lemma nn_put a n : nonew (put a n : prog T _). Proof. exact I. Qed.
  Lemma nn_upgrade a : nonew (upgrade a : prog T _). Proof. intros n. exact I. Qed.
End Nonew.

Ltac nn :=
  repeat first
    [ exact I | assumption | solve [eauto]
    | apply nn_read | apply nn_modify | apply nn_expect | apply nn_assert | apply nn_lock | apply nn_unlock | apply nn_get
    | apply nn_put | apply nn_upgrade
    | apply nn_mapM; intros ? | apply nn_filterM; intros ? | apply nn_forM; intros ? | apply nn_forM_try; intros ?
    | apply nn_findM; intros ? | apply nn_positionM; intros ?
    | apply nn_bind; [|intros ?]
    | match goal with |- nonew (match ?x with _ => _ end) => destruct x end ].

Section NonewCalls.
  Context {T : Type} `{Sc : Scalar T}.

  Lemma nn_parent a : nonew (node_parent a : prog T _). Proof. unfold node_parent. nn. Qed.
  Lemma nn_mimic_parent a : nonew (node_mimic_parent a : prog T _). Proof. unfold node_mimic_parent. nn. Qed.
  Hint Resolve nn_parent nn_mimic_parent : core.
  Lemma nn_mimic_loop self p cs : nonew (mimic_loop self p cs : prog T _).
  Proof. induction cs as [|c cs IH]; [exact I|]. cbn -[bind lock get read put unlock joint_set]. nn. Qed.
  Hint Resolve nn_mimic_loop : core.
  Lemma nn_set_position a p : nonew (node_set_joint_position a p : prog T _).
  Proof. unfold node_set_joint_position. nn. Qed.
  Lemma nn_anc_next it : nonew (ancestors_next it : prog T _). Proof. unfold ancestors_next. nn. Qed.
  Hint Resolve nn_set_position nn_anc_next : core.
  Lemma nn_anc fuel it : nonew (ancestors_collect fuel it : prog T _).
  Proof. revert it. induction fuel as [|fuel IH]; intros it; [exact I|]. cbn -[bind ancestors_next]. nn. Qed.
  Lemma nn_until fuel it r : nonew (ancestors_until fuel it r : prog T _).
  Proof. revert it. induction fuel as [|fuel IH]; intros it; [exact I|]. cbn -[bind ancestors_next]. nn. Qed.
  Lemma nn_desc_next it : nonew (descendants_next it : prog T _). Proof. unfold descendants_next, node_children. nn. Qed.
  Hint Resolve nn_desc_next nn_anc nn_until : core.
  Lemma nn_desc fuel it : nonew (descendants_collect fuel it : prog T _).
  Proof. revert it. induction fuel as [|fuel IH]; intros it; [exact I|]. cbn -[bind descendants_next]. nn. Qed.
  Lemma nn_from_nodes l : nonew (from_nodes l : prog T _). Proof. unfold from_nodes. nn. Qed.
  Hint Resolve nn_desc nn_from_nodes : core.
  Lemma nn_iter_joints {A} c (f : joint T -> prog T A) : (forall j, nonew (f j)) -> nonew (iter_joints c f).
  Proof. intros Hf. unfold iter_joints. nn. Qed.
  Lemma nn_links l : nonew (links_loop l : prog T _).
  Proof. induction l as [|a l IH]; [exact I|]. cbn -[bind lock get read expect unlock]. nn. Qed.
  Lemma nn_pwt a : nonew (parent_world_transform a : prog T _).
  Proof. unfold parent_world_transform, node_world_transform. nn. Qed.
  Lemma nn_pwv a : nonew (parent_world_velocity a : prog T _).
  Proof. unfold parent_world_velocity, node_world_velocity. nn. Qed.
  Hint Resolve nn_links nn_pwt nn_pwv : core.
  Lemma nn_update_transforms c : nonew (update_transforms c : prog T _).
  Proof. unfold update_transforms, update_transform. nn. Qed.
  Hint Resolve nn_update_transforms : core.
  Lemma nn_velocity a j x y : nonew (velocity_in_match a j x y : prog T _).
  Proof. unfold velocity_in_match, node_world_transform. nn. Qed.
  Hint Resolve nn_velocity : core.
  Lemma nn_update_velocities c : nonew (update_velocities c : prog T _).
  Proof. unfold update_velocities, update_velocity. nn. Qed.
  Lemma nn_update_links c : nonew (update_link_transforms c : prog T _).
  Proof. unfold update_link_transforms, update_link_transform. nn. Qed.
  Lemma nn_fmt fuel l a level : nonew (fmt_with_indent_level fuel l a level : prog T _).
  Proof.
    revert a level. induction fuel as [|fuel IH]; intros a level; [exact I|].
    cbn -[bind node_fmt lock get mapM unlock]. unfold node_fmt. nn.
  Qed.
  Lemma nn_usize ovf a b : nonew (usize_sub ovf a b : prog T _). Proof. unfold usize_sub. nn. Qed.
  Hint Resolve nn_fmt nn_usize : core.
  Lemma nn_all_one l : nonew (all_one_child l : prog T _).
  Proof. induction l as [|a l IH]; [exact I|]. cbn -[bind node_children]. unfold node_children. nn. Qed.
  Lemma nn_end_fold acc l : nonew (end_fold acc l : prog T _).
  Proof. revert acc. induction l as [|a l IH]; intros acc; [exact I|]. cbn -[bind read]. nn. Qed.
  Lemma nn_end c : nonew (end_transform c : prog T _). Proof. apply nn_end_fold. Qed.
  Hint Resolve nn_all_one nn_end : core.
  Lemma nn_jacobian c : nonew (jacobian c : prog T _).
  Proof.
    unfold jacobian. nn. unfold jacobian_column. nn.
  Qed.
  Lemma nn_com_loop acc l : nonew (com_loop acc l : prog T _).
  Proof. revert acc. induction l as [|a l IH]; intros acc; [exact I|]. cbn -[bind com_step]. unfold com_step, node_world_transform. nn. Qed.
  Hint Resolve nn_jacobian nn_com_loop : core.
  Lemma nn_positions c : nonew (joint_positions c : prog T _).
  Proof. apply nn_iter_joints. intros. apply nn_expect. Qed.
  Lemma nn_set_positions c ps : nonew (set_joint_positions c ps : prog T _).
  Proof. unfold set_joint_positions. nn. Qed.
  Lemma nn_set_clamped c ps : nonew (set_joint_positions_clamped c ps : prog T _).
  Proof. unfold set_joint_positions_clamped, node_set_joint_position_clamped. nn. Qed.
  Hint Resolve nn_positions nn_set_positions nn_set_clamped : core.
  Lemma nn_remove_rows ovf i r ops m : nonew (remove_rows ovf i r ops m : prog T _).
  Proof. revert i r m. induction ops as [|[|] ops IH]; intros; cbn -[bind usize_sub]; nn. Qed.
  Lemma nn_remove_columns {A} ovf i idx (l : list A) : nonew (remove_columns ovf i idx l : prog T _).
  Proof. revert i l. induction idx as [|j idx IH]; intros; [exact I|]. cbn -[bind usize_sub remove_nth]. unfold remove_nth. nn. Qed.
  Lemma nn_insert_rows idx (l : list T) : nonew (insert_rows idx l : prog T _).
  Proof. revert l. induction idx as [|j idx IH]; intros; [exact I|]. cbn -[bind insert_nth]. unfold insert_nth. nn. Qed.
  Hint Resolve nn_remove_rows nn_remove_columns nn_insert_rows : core.
  Lemma nn_new_positions ovf la s o e j av rq idx : nonew (new_positions ovf la s o e j av rq idx : prog T _).
  Proof. unfold new_positions. nn. Qed.
  Hint Resolve nn_new_positions : core.
  Lemma nn_one_loop ovf la s c tg ops idx : nonew (solve_one_loop_with_constraints ovf la s c tg ops idx : prog T _).
  Proof. unfold solve_one_loop_with_constraints. nn. Qed.
  Hint Resolve nn_one_loop : core.
  Lemma nn_ik_loop ovf la s c tg ops idx orig n last : nonew (ik_loop ovf la s c tg ops idx orig n last : prog T _).
  Proof.
    revert last. induction n as [|n IH]; intros last; cbn -[bind set_joint_positions solve_one_loop_with_constraints expect
      joint_positions set_joint_positions_clamped]; nn.
  Qed.
  Lemma nn_ignored c l : nonew (ignored_indices c l : prog T _).
  Proof. induction l as [|x l IH]; [exact I|]. cbn -[bind positionM read]. nn. Qed.
  Hint Resolve nn_ik_loop nn_ignored : core.
  Lemma nn_solve ovf la s c tg cs : nonew (solve_with_constraints ovf la s c tg cs : prog T _).
  Proof. unfold solve_with_constraints, solve_with_constraints_internal. nn. Qed.
  Hint Resolve nn_solve : core.
  Lemma nn_interp {R} (k : api T R) : creates_nothing R k -> nonew (interp k).
  Proof.
    destruct k; cbn [interp creates_nothing]; intros Hk; try contradiction; clear Hk;
      try (cbv beta delta [node_joint_position node_children node_set_parent node_remove_parent node_is_root node_is_end
        node_set_origin node_origin node_set_joint_position_clamped node_set_joint_position_unchecked node_world_transform
        node_world_velocity node_set_mimic_parent node_set_link node_link node_fmt from_root from_end from_end_to_root
        iter_ancestors iter_descendants first_node iter_links chain_find set_joint_positions_unchecked chain_fmt try_new
        center_of_mass solve chain_set_origin chain_origin]; nn).
  Qed.
  Lemma nn_denote {A} hs K (cl : client T A) : obeys creates_nothing hs K cl -> nonew (denote cl).
  Proof.
    revert K. induction cl as [x|R k next IH]; intros K Ho; cbn -[interp] in *; [exact I|].
    destruct Ho as (H1 & _ & H3). apply nn_bind; [apply nn_interp; assumption|]. intros r. eapply IH. apply H3.
  Qed.
End NonewCalls.

(** ** One step, seen through a window *)
Section Window.
  Context {T : Type} (m : mode T) (F : gset nat).
  Implicit Types (s : sh T) (hp : gmap nat (option (node T))).

  Lemma part_heap s a : heap (part F s) !! a = if decide (a ∈ F) then heap s !! a else None.
  Proof.
    cbn. destruct (decide (a ∈ F)) as [Ha|Ha].
    - destruct (heap s !! a) eqn:E; [apply map_filter_lookup_Some; auto|apply map_filter_lookup_None; auto].
    - apply map_filter_lookup_None. right. intros x _. exact Ha.
  Qed.
  Lemma part_locks s a : locks (part F s) !! a = if decide (a ∈ F) then locks s !! a else None.
  Proof.
    cbn. destruct (decide (a ∈ F)) as [Ha|Ha].
    - destruct (locks s !! a) eqn:E; [apply map_filter_lookup_Some; auto|apply map_filter_lookup_None; auto].
    - apply map_filter_lookup_None. right. intros x _. exact Ha.
  Qed.
  Lemma part_heap_in s a : a ∈ F -> heap (part F s) !! a = heap s !! a.
  Proof. intros Ha. rewrite part_heap, decide_True by assumption. reflexivity. Qed.
  Lemma part_locks_in s a : a ∈ F -> locks (part F s) !! a = locks s !! a.
  Proof. intros Ha. rewrite part_locks, decide_True by assumption. reflexivity. Qed.
  Lemma sh_eq s s' : (forall a, heap s !! a = heap s' !! a) -> nxt s = nxt s' -> (forall a, locks s !! a = locks s' !! a) ->
    (forall a, a ∈ poison s <-> a ∈ poison s') -> s = s'.
  Proof.
    destruct s, s'. cbn. intros H1 -> H2 H3. f_equal; [apply map_eq; assumption|apply map_eq; assumption|].
    apply set_eq. assumption.
  Qed.
  Lemma part_lock s a t : a ∈ F -> part F (set_locks s (<[a := t]> (locks s))) = set_locks (part F s) (<[a := t]> (locks (part F s))).
  Proof.
    intros Ha. apply sh_eq; try reflexivity. intros b. rewrite part_locks. cbn [locks set_locks].
    destruct (decide (b = a)) as [->|Hne].
    - rewrite decide_True by assumption. rewrite !lookup_insert. reflexivity.
    - rewrite !lookup_insert_ne by congruence. symmetry. apply part_locks.
  Qed.
  Lemma part_unlock s a : part F (set_locks s (delete a (locks s))) = set_locks (part F s) (delete a (locks (part F s))).
  Proof.
    apply sh_eq; try reflexivity. intros b. rewrite part_locks. cbn [locks set_locks].
    destruct (decide (b = a)) as [->|Hne].
    - rewrite !lookup_delete. destruct (decide _); reflexivity.
    - rewrite !lookup_delete_ne by congruence. symmetry. apply part_locks.
  Qed.
  Lemma part_put s a n : a ∈ F -> part F (set_heap s (<[a := n]> (heap s))) = set_heap (part F s) (<[a := n]> (heap (part F s))).
  Proof.
    intros Ha. apply sh_eq; try reflexivity. intros b. rewrite part_heap. cbn [heap set_heap].
    destruct (decide (b = a)) as [->|Hne].
    - rewrite decide_True by assumption. rewrite !lookup_insert. reflexivity.
    - rewrite !lookup_insert_ne by congruence. symmetry. apply part_heap.
  Qed.

  Notation pub := (gset_to_gmap false F).
  Lemma pub_in a : shared pub a <-> a ∈ F.
  Proof. unfold shared. rewrite lookup_gset_to_gmap. unfold is_Some. split.
    - intros [b Hb]. apply option_guard_bool_decide in Hb || idtac. destruct (decide (a ∈ F)); [assumption|].
      rewrite option_guard_False in Hb by assumption. discriminate.
    - intros Ha. exists false. rewrite option_guard_True by assumption. reflexivity.
  Qed.

  (** what thread [t] knows about the window *)
  Record hold (t : nat) hp s : Prop := {
    hd_live : forall a, a ∈ F -> exists n, heap s !! a = Some n /\ node_ok m pub a n;
    hd_dead : forall w, dead m w -> heap s !! w = None;
    hd_mine : forall a u, a ∈ F -> locks s !! a = Some u -> u = t;
    hd_locks : forall a, locks s !! a = Some t <-> is_Some (hp !! a);
    hd_hp : forall a, is_Some (hp !! a) -> a ∈ F;
    hd_know : forall a n, hp !! a = Some (Some n) -> heap s !! a = Some n;
  }.
  (** nothing changes outside the window *)
  Record outside s s' : Prop := {
    os_nxt : nxt s' = nxt s;
    os_heap : forall a, a ∉ F -> heap s' !! a = heap s !! a;
    os_locks : forall a, a ∉ F -> locks s' !! a = locks s !! a;
    os_poison : forall a, a ∉ F -> a ∈ poison s' <-> a ∈ poison s;
  }.
  Lemma outside_refl s : outside s s.
  Proof. split; auto. Qed.

  Lemma part_unwind t hp s : hold t hp s -> part F (unwind t s) = unwind t (part F s).
  Proof.
    intros H. apply sh_eq; try reflexivity; cbn [nxt heap locks poison unwind].
    - intros a. cbn. apply option_eq. intros u. rewrite !map_filter_lookup_Some. tauto.
    - intros a. cbn. rewrite elem_of_intersection, !elem_of_union, elem_of_intersection, !elem_of_dom. unfold is_Some.
      setoid_rewrite map_filter_lookup_Some. setoid_rewrite map_filter_lookup_Some. cbn. split.
      + intros [[Hp|[u Hu]] Ha]; [auto|]. right. exists u. tauto.
      + intros [[Hp Ha]|[u Hu]]; [auto|]. split; [|apply Hu]. right. exists u. tauto.
  Qed.
  Lemma unwind_outside t hp s : hold t hp s -> outside s (unwind t s).
  Proof.
    intros H. split; cbn [nxt heap locks poison unwind]; auto.
    - intros a Ha. apply option_eq. intros u. rewrite map_filter_lookup_Some. cbn. split; [tauto|].
      intros Hu. split; [assumption|]. intros ->. apply Ha. eapply hd_hp; [exact H|]. apply (hd_locks _ _ _ H). assumption.
    - intros a Ha. rewrite elem_of_union, elem_of_dom. split; [|auto]. intros [Hp|[u Hu]]; [assumption|].
      apply map_filter_lookup_Some in Hu as [Hu E]. cbn in E. subst u. exfalso. apply Ha.
      eapply hd_hp; [exact H|]. apply (hd_locks _ _ _ H). assumption.
  Qed.

  Lemma step_part {A} t (Q : _ -> _ -> _ -> _ -> A -> Prop) hp p :
    safe m Q pub ∅ hp ∅ p -> nonew p ->
    forall s, hold t hp s ->
    match exec1 t p s with
    | RRet x => p = Ret x
    | RStep p' s' => exec1 t p (part F s) = RStep p' (part F s') /\ nonew p' /\ outside s s' /\
        exists hp', safe m Q pub ∅ hp' ∅ p' /\ hold t hp' s'
    | RBlocked a => a ∈ F /\ exec1 t p (part F s) = RBlocked a
    | RPanic msg s' => exec1 t p (part F s) = RPanic msg (part F s') /\ s' = unwind t s
    | RNoFuel => p = NoFuel
    | RStuck => False
    end.
  Proof.
    intros Hs. remember pub as pb eqn:Epb. remember (∅ : gmap nat (node T)) as pv eqn:Epv. remember (∅ : gset nat) as hv eqn:Ehv.
    revert Epb Epv Ehv.
    induction Hs as
      [pb pv hp hv1 x HQ
      |pb pv hp hv1 a k Ha Hm Hk IH
      |pb pv hp hv1 a k Est Ha
      |pb pv hp hv1 a k Ha Hm Hk IH
      |pb pv hp hv1 a k Ha Hk IH
      |pb pv hp hv1 a k Ha Hk IH
      |pb pv hp hv1 a k Ha Hk IH
      |pb pv hp hv1 a n k Ha Hn Hk IH
      |pb pv hp hv1 a n0 n k Ha Hn Hg Hk IH
      |pb pv hp hv1 a n k Ha Hn Hpr Hk IH
      |pb pv hp hv1 n k Hnr Hk IH
      |pb pv hp hv1 a k Ha Hk IH
      |pb pv hp hv1 a k Ha Hk IH
      |pb pv hp hv1 a k Ha Hk IH
      |pb pv hp hv1 msg
      |pb pv hp hv1 Hst
      |pb pv hp hv1 flags p Hhv Hdom Hok Hp IH]; intros -> -> -> Hnn s HH.
    - reflexivity.
    - apply pub_in in Ha. cbn [exec1]. rewrite part_heap_in, part_locks_in by assumption.
      destruct (hd_live _ _ _ HH a Ha) as (n & Hn & Hok). rewrite Hn.
      destruct (locks s !! a) as [u|] eqn:El; [auto|].
      destruct (decide (a ∈ poison s)) as [Hp|Hp].
      + split; [|reflexivity]. rewrite decide_True by (cbn; set_solver). f_equal. symmetry. eapply part_unwind; eauto.
      + rewrite decide_False by (cbn; set_solver). split; [f_equal; symmetry; apply part_lock; assumption|]. split; [exact Hnn|]. split.
        * split; cbn; auto. intros b Hb. rewrite lookup_insert_ne by set_solver. reflexivity.
        * exists (<[a := None]> hp). split; [assumption|]. destruct HH as [H1 H2 H3 H4 H5 H6]. split; cbn [heap locks set_locks].
          -- assumption.
          -- assumption.
          -- intros b u Hb. destruct (decide (b = a)) as [->|Hne]; [rewrite lookup_insert; congruence|].
             rewrite lookup_insert_ne by congruence. eauto.
          -- intros b. destruct (decide (b = a)) as [->|Hne]; [rewrite !lookup_insert; split; [eauto|reflexivity]|].
             rewrite !lookup_insert_ne by congruence. apply H4.
          -- intros b. destruct (decide (b = a)) as [->|Hne]; [auto|]. rewrite lookup_insert_ne by congruence. apply H5.
          -- intros b nb. destruct (decide (b = a)) as [->|Hne]; [rewrite lookup_insert; discriminate|].
             rewrite lookup_insert_ne by congruence. apply H6.
    - pose proof (hd_hp _ _ _ HH a Ha) as Hin. cbn [exec1]. rewrite part_heap_in, part_locks_in by assumption.
      destruct (hd_live _ _ _ HH a Hin) as (n & Hn & Hok). rewrite Hn.
      rewrite (proj2 (hd_locks _ _ _ HH a) Ha). auto.
    - rewrite lookup_empty in Ha. destruct Ha. discriminate.
    - pose proof (hd_hp _ _ _ HH a Ha) as Hin. cbn [exec1]. rewrite part_locks_in by assumption.
      rewrite !decide_True by (apply (hd_locks _ _ _ HH); assumption).
      split; [f_equal; symmetry; apply part_unlock|]. split; [exact Hnn|]. split.
      + split; cbn; auto. intros b Hb. rewrite lookup_delete_ne by set_solver. reflexivity.
      + exists (delete a hp). split; [assumption|]. destruct HH as [H1 H2 H3 H4 H5 H6]. split; cbn [heap locks set_locks].
        * assumption.
        * assumption.
        * intros b u Hb Hl. apply lookup_delete_Some in Hl as [_ Hl]. eauto.
        * intros b. destruct (decide (b = a)) as [->|Hne]; [rewrite !lookup_delete; split; [discriminate|intros [? ?]; discriminate]|].
          rewrite !lookup_delete_ne by congruence. apply H4.
        * intros b [x Hb]. apply lookup_delete_Some in Hb as [_ Hb]. eauto.
        * intros b nb Hb. apply lookup_delete_Some in Hb as [_ Hb]. eauto.
    - set_solver.
    - pose proof (hd_hp _ _ _ HH a Ha) as Hin. cbn [exec1]. rewrite part_locks_in, part_heap_in by assumption.
      rewrite !decide_True by (apply (hd_locks _ _ _ HH); assumption).
      destruct (hd_live _ _ _ HH a Hin) as (n & Hn & Hok). rewrite Hn.
      split; [reflexivity|]. split; [apply Hnn|]. split; [apply outside_refl|].
      exists (<[a := Some n]> hp). split.
      { apply Hk; [reflexivity|assumption| |].
        - intros b Hb. rewrite lookup_empty in Hb. destruct Hb; discriminate.
        - intros n1 H1. apply (hd_know _ _ _ HH) in H1. congruence. }
      destruct HH as [H1 H2 H3 H4 H5 H6]. split; auto.
      + intros b. rewrite H4. destruct (decide (b = a)) as [->|Hne]; [rewrite lookup_insert; split; [eauto|intros _; exact Ha]|].
        rewrite lookup_insert_ne by congruence. reflexivity.
      + intros b. destruct (decide (b = a)) as [->|Hne]; [auto|]. rewrite lookup_insert_ne by congruence. apply H5.
      + intros b nb. destruct (decide (b = a)) as [->|Hne]; [rewrite lookup_insert; congruence|].
        rewrite lookup_insert_ne by congruence. apply H6.
    - set_solver.
    - pose proof (hd_hp _ _ _ HH a ltac:(eauto)) as Hin. cbn [exec1]. rewrite part_locks_in by assumption.
      rewrite !decide_True by (apply (hd_locks _ _ _ HH); eauto).
      split; [f_equal; symmetry; apply part_put; assumption|]. split; [apply Hnn|]. split.
      + split; cbn; auto. intros b Hb. rewrite lookup_insert_ne by set_solver. reflexivity.
      + exists (<[a := Some n]> hp). split; [assumption|]. destruct HH as [H1 H2 H3 H4 H5 H6]. split; cbn [heap locks set_heap].
        * intros b Hb. destruct (decide (b = a)) as [->|Hne]; [rewrite lookup_insert; eauto|].
          rewrite lookup_insert_ne by congruence. auto.
        * intros w Hw. destruct (decide (w = a)) as [->|Hne]; [|rewrite lookup_insert_ne by congruence; auto].
          destruct (H1 a Hin) as (na & Hna & _). rewrite (H2 _ Hw) in Hna. discriminate.
        * assumption.
        * intros b. rewrite H4. destruct (decide (b = a)) as [->|Hne]; [rewrite lookup_insert; split; [eauto|intros _; eauto]|].
          rewrite lookup_insert_ne by congruence. reflexivity.
        * intros b. destruct (decide (b = a)) as [->|Hne]; [auto|]. rewrite lookup_insert_ne by congruence. apply H5.
        * intros b nb. destruct (decide (b = a)) as [->|Hne]; [rewrite !lookup_insert; congruence|].
          rewrite !lookup_insert_ne by congruence. apply H6.
    - set_solver.
    - destruct Hnn.
    - apply pub_in in Ha. cbn [exec1]. rewrite part_heap_in by assumption.
      destruct (hd_live _ _ _ HH a Ha) as (n & Hn & Hok). rewrite Hn. rewrite bool_decide_true by eauto.
      split; [reflexivity|]. split; [apply Hnn|]. split; [apply outside_refl|]. exists hp. auto.
    - rewrite lookup_empty in Ha. destruct Ha. discriminate.
    - cbn [exec1]. rewrite part_heap. rewrite (hd_dead _ _ _ HH _ Ha).
      replace (if decide (a ∈ F) then None else None) with (@None (node T)) by (destruct (decide _); reflexivity).
      rewrite bool_decide_false by (intros [? ?]; discriminate).
      split; [reflexivity|]. split; [apply Hnn|]. split; [apply outside_refl|]. exists hp. auto.
    - cbn [exec1]. split; [|reflexivity]. f_equal. symmetry. eapply part_unwind; eauto.
    - reflexivity.
    - rewrite dom_empty_L in Hdom. apply dom_empty_iff_L in Hdom. subst flags.
      rewrite (right_id_L ∅ (∪) pub) in *. apply IH; auto.
  Qed.
End Window.

(** ** Whole runs and interleavings *)
Section Apart.
  Context {T : Type} `{Sc : Scalar T}.

  Section Mode.
    Context (m : mode T).
    Notation pub F := (gset_to_gmap false F).

    Lemma run_part {A} F t (Q : _ -> _ -> _ -> _ -> A -> Prop) : forall p hp s,
      safe m Q (pub F) ∅ hp ∅ p -> nonew p -> hold m F t hp s ->
      run t p (part F s) = part_outcome F (run t p s).
    Proof.
      intros p. induction p as [p IH] using prog_step_ind. intros hp s Hs Hn Hh.
      pose proof (step_part m F t Q hp p Hs Hn s Hh) as H. rewrite (run_exec1 t p s).
      destruct (exec1 t p s) as [x|p' s'|a|msg s'| |] eqn:E.
      - subst p. reflexivity.
      - destruct H as (H1 & H2 & _ & hp' & H3 & H4). rewrite run_exec1, H1. eapply IH; eauto.
      - destruct H as (_ & H). rewrite run_exec1, H. reflexivity.
      - destruct H as (H & _). rewrite run_exec1, H. reflexivity.
      - subst p. reflexivity.
      - contradiction.
    Qed.
    Lemma run_outside {A} F t (Q : _ -> _ -> _ -> _ -> A -> Prop) : forall p hp s,
      safe m Q (pub F) ∅ hp ∅ p -> nonew p -> hold m F t hp s ->
      exists s', final_state (run t p s) = Some s' /\ forall a, a ∉ F -> heap s' !! a = heap s !! a.
    Proof.
      intros p. induction p as [p IH] using prog_step_ind. intros hp s Hs Hn Hh.
      pose proof (step_part m F t Q hp p Hs Hn s Hh) as H. rewrite (run_exec1 t p s).
      destruct (exec1 t p s) as [x|p' s'|a|msg s'| |] eqn:E; cbn; eauto.
      - destruct H as (H1 & H2 & Ho & hp' & H3 & H4). destruct (IH _ _ _ _ E _ _ H3 H2 H4) as (s2 & H5 & H6).
        exists s2. split; [assumption|]. intros a Ha. rewrite H6 by assumption. apply (os_heap _ _ _ Ho). assumption.
      - destruct H as (_ & ->). eauto.
      - contradiction.
    Qed.

    (** a step of one thread, seen by another *)
    Lemma other_part F F' (s s' : sh T) : F ## F' -> outside F s s' -> part F' s' = part F' s.
    Proof.
      intros Hd Ho. apply sh_eq.
      - intros a. rewrite !part_heap. destruct (decide _); [|reflexivity]. apply (os_heap _ _ _ Ho). set_solver.
      - exact (os_nxt _ _ _ Ho).
      - intros a. rewrite !part_locks. destruct (decide _); [|reflexivity]. apply (os_locks _ _ _ Ho). set_solver.
      - intros a. cbn. rewrite !elem_of_intersection. split; intros [H1 H2]; (split; [|assumption]);
          apply (os_poison _ _ _ Ho); auto; set_solver.
    Qed.
    Lemma other_hold F F' t u hp (s s' : sh T) : F ## F' -> t <> u -> outside F s s' ->
      (forall w, dead m w -> heap s' !! w = None) ->
      (forall a v, a ∈ F -> locks s' !! a = Some v -> v <> u) ->
      hold m F' u hp s -> hold m F' u hp s'.
    Proof.
      intros Hd Hne Ho Hdead Hlk [H1 H2 H3 H4 H5 H6].
      assert (Hin : forall a, a ∈ F' -> heap s' !! a = heap s !! a /\ locks s' !! a = locks s !! a).
      { intros a Ha. split; [apply (os_heap _ _ _ Ho)|apply (os_locks _ _ _ Ho)]; set_solver. }
      split.
      - intros a Ha. rewrite (proj1 (Hin a Ha)). auto.
      - assumption.
      - intros a v Ha. rewrite (proj2 (Hin a Ha)). eauto.
      - intros a. destruct (decide (a ∈ F)) as [Ha|Ha].
        + split.
          * intros Hl. destruct (Hlk _ _ Ha Hl). reflexivity.
          * intros Hx. apply H5 in Hx. set_solver.
        + rewrite (os_locks _ _ _ Ho) by assumption. apply H4.
      - assumption.
      - intros a n Hn. assert (Ha : a ∈ F') by (apply H5; eauto). rewrite (proj1 (Hin a Ha)). auto.
    Qed.
  End Mode.

  Context {A : Type} (h : gmap nat (node T)) (nx : nat) (po : gset nat) (cls : list (client T A)) (F : nat -> gset nat).
  Hypothesis Hok : heap_ok h nx.
  Hypothesis Hlive : forall t a, t < length cls -> a ∈ F t -> is_Some (h !! a).
  Hypothesis Hisl : forall t, t < length cls -> island h (F t).
  Hypothesis Hdis : forall t u, t < length cls -> u < length cls -> t <> u -> F t ## F u.
  Hypothesis Hobeys : forall t cl, cls !! t = Some cl -> obeys creates_nothing (fun _ => []) (fun a => a ∈ F t) cl.

  Notation m := (types_mode h nx).
  Notation s0 := (Sh h nx ∅ po).
  Definition any_end (pub : gmap nat bool) (priv : gmap nat (node T)) (hp : gmap nat (option (node T))) (hv : gset nat) (x : A) : Prop := True.

  Lemma start_hold t : t < length cls -> hold m (F t) t ∅ s0.
  Proof.
    intros Ht. split; cbn [heap locks].
    - intros a Ha. destruct (Hlive t a Ht Ha) as [n Hn]. exists n. split; [assumption|].
      destruct (Hisl t Ht a n Ha Hn) as [I1 I2]. split; try exact I.
      + intros c Hc. apply pub_in. apply I1. set_solver.
      + intros c Hc. split; [|discriminate]. apply pub_in. apply I1. set_solver.
      + destruct (n_parent n) as [w|] eqn:E; [|exact I]. cbn.
        destruct (I2 w (or_introl eq_refl)) as [Hw|Hw]; [left; apply pub_in; assumption|].
        right. split; [eapply hk_parent; eauto|assumption].
      + destruct (n_mimic_parent n) as [w|] eqn:E; [|exact I]. cbn.
        destruct (I2 w (or_intror eq_refl)) as [Hw|Hw]; [left; apply pub_in; assumption|].
        right. split; [eapply hk_mimic_parent; eauto|assumption].
      + discriminate.
    - intros w [_ Hw]. assumption.
    - intros a u _ Hu. rewrite lookup_empty in Hu. discriminate.
    - intros a. rewrite !lookup_empty. split; [discriminate|intros [? ?]; discriminate].
    - intros a [? Ha]. rewrite lookup_empty in Ha. discriminate.
    - intros a n Hn. rewrite lookup_empty in Hn. discriminate.
  Qed.
  Lemma start_safe t cl : cls !! t = Some cl ->
    safe m any_end (gset_to_gmap false (F t)) ∅ ∅ ∅ (denote cl) /\ nonew (denote cl).
  Proof.
    intros Hcl. split; [|eapply nn_denote; eapply Hobeys; eauto].
    eapply safe_mono; [|apply (client_tri m creates_nothing (fun _ => []) (fun R k _ => types_permitted h nx R k) cl (fun a => a ∈ F t));
      [apply Hobeys; assumption|intros a Ha; apply pub_in; assumption]].
    intros. exact I.
  Qed.

  Record apart (ths : list (thread T A)) (s : sh T) : Prop := {
    ap_len : length ths = length cls;
    ap_each : forall t cl th, cls !! t = Some cl -> ths !! t = Some th ->
      run t (denote cl) (part (F t) s0) = from_here t th (part (F t) s) /\
      match th with
      | Running p => exists hp, safe m any_end (gset_to_gmap false (F t)) ∅ hp ∅ p /\ nonew p /\ hold m (F t) t hp s
      | Dead _ => True
      end;
    ap_dead : forall w, dead m w -> heap s !! w = None;
    ap_rest : forall a, (forall t, t < length cls -> a ∉ F t) -> heap s !! a = h !! a;
  }.
  Lemma apart_start : apart (spawn cls) s0.
  Proof.
    split.
    - unfold spawn. apply map_length.
    - intros t cl th Hcl Hth. unfold spawn in Hth. rewrite list_lookup_fmap, Hcl in Hth. cbn in Hth. injection Hth as <-.
      split; [reflexivity|]. exists ∅. destruct (start_safe t cl Hcl). split; [assumption|]. split; [assumption|].
      apply start_hold. eapply lookup_lt_Some. exact Hcl.
    - intros w [_ Hw]. exact Hw.
    - reflexivity.
  Qed.
  Lemma lookup_cls t (ths : list (thread T A)) th : length ths = length cls -> ths !! t = Some th -> exists cl, cls !! t = Some cl.
  Proof. intros Hl Ht. apply lookup_lt_is_Some. rewrite <- Hl. eapply lookup_lt_Some. exact Ht. Qed.

  Lemma apart_step c c' : tstep c c' -> apart c.1 c.2 -> apart c'.1 c'.2.
  Proof.
    intros Hst HA.
    assert (Hgen : forall t p th' ths s s', ths !! t = Some (Running p) -> apart ths s ->
      outside (F t) s s' ->
      (forall cl, cls !! t = Some cl -> run t p (part (F t) s) = from_here t th' (part (F t) s') /\
        match th' with
        | Running p => exists hp, safe m any_end (gset_to_gmap false (F t)) ∅ hp ∅ p /\ nonew p /\ hold m (F t) t hp s'
        | Dead _ => True
        end) ->
      (forall w, dead m w -> heap s' !! w = None) ->
      (forall a v, a ∈ F t -> locks s' !! a = Some v -> v = t) ->
      apart (<[t := th']> ths) s').
    { clear c c' Hst HA. intros t p th' ths s s' Ht [HL HE HD HR] Ho Hmine Hdd Hlk.
      destruct (lookup_cls t ths _ HL Ht) as [cl0 Hcl0].
      pose proof (lookup_lt_Some _ _ _ Hcl0) as Hlt. split.
      - rewrite insert_length. assumption.
      - intros u cl th Hcl Hth. destruct (decide (u = t)) as [->|Hne].
        + rewrite list_lookup_insert in Hth by (rewrite HL; eapply lookup_lt_Some; exact Hcl). injection Hth as <-.
          destruct (Hmine cl Hcl) as [H1 H2]. split; [|exact H2]. rewrite <- H1. apply (HE t cl _ Hcl Ht).
        + rewrite list_lookup_insert_ne in Hth by congruence. destruct (HE u cl th Hcl Hth) as [H1 H2].
          assert (Hd : F t ## F u) by (apply Hdis; [assumption|eapply lookup_lt_Some; exact Hcl|congruence]).
          split; [rewrite (other_part _ _ _ _ Hd Ho); exact H1|].
          destruct th as [q|]; [|exact I]. destruct H2 as (hp & H2 & H3 & H4). exists hp. split; [assumption|]. split; [assumption|].
          eapply (other_hold m (F t) (F u) t u); eauto. intros a v Ha Hv. rewrite (Hlk _ _ Ha Hv). congruence.
      - assumption.
      - intros a Ha. rewrite (os_heap _ _ _ Ho) by auto. auto. }
    destruct Hst as [t ths s p p' s' Ht He|t ths s p msg s' Ht He]; cbn [fst snd] in *.
    - destruct (lookup_cls t ths _ (ap_len _ _ HA) Ht) as [cl Hcl].
      destruct (ap_each _ _ HA t cl _ Hcl Ht) as (_ & hp & Hsafe & Hnn & Hh).
      pose proof (step_part m (F t) t any_end hp p Hsafe Hnn s Hh) as H. rewrite He in H.
      destruct H as (H1 & H2 & Ho & hp' & H3 & H4). eapply Hgen; eauto.
      + intros cl1 _. split; [cbn [from_here]; rewrite run_exec1, H1; reflexivity|]. eauto.
      + apply (hd_dead _ _ _ _ _ H4).
      + apply (hd_mine _ _ _ _ _ H4).
    - destruct (lookup_cls t ths _ (ap_len _ _ HA) Ht) as [cl Hcl].
      destruct (ap_each _ _ HA t cl _ Hcl Ht) as (_ & hp & Hsafe & Hnn & Hh).
      pose proof (step_part m (F t) t any_end hp p Hsafe Hnn s Hh) as H. rewrite He in H.
      destruct H as (H1 & ->). eapply Hgen; eauto.
      + eapply unwind_outside; eauto.
      + intros cl1 _. split; [cbn [from_here]; rewrite run_exec1, H1; reflexivity|exact I].
      + apply (hd_dead _ _ _ _ _ Hh).
      + cbn. intros a v Ha Hv. apply map_filter_lookup_Some in Hv as [Hv _]. eapply hd_mine; eauto.
  Qed.
  Lemma apart_steps c : tsteps (spawn cls, s0) c -> apart c.1 c.2.
  Proof.
    intros Hst. assert (Hgen : forall c0, tsteps c0 c -> apart c0.1 c0.2 -> apart c.1 c.2).
    { clear Hst. intros c0 Hst. induction Hst as [c0|c0 c1 c2 H1 H2 IH]; [auto|]. intros HA. apply IH.
      eapply apart_step; eauto. }
    apply (Hgen _ Hst). apply apart_start.
  Qed.

  Theorem apart_runs c t cl th : tsteps (spawn cls, s0) c -> cls !! t = Some cl -> c.1 !! t = Some th ->
    from_here t th (part (F t) c.2) = run t (denote cl) (part (F t) s0) /\
    run t (denote cl) (part (F t) s0) = part_outcome (F t) (run t (denote cl) s0) /\
    (moves t c \/ at_end (run t (denote cl) s0) th).
  Proof.
    intros Hst Hcl Hth. pose proof (apart_steps c Hst) as HA.
    destruct (ap_each _ _ HA t cl th Hcl Hth) as [H1 H2].
    assert (Hlt : t < length cls) by (eapply lookup_lt_Some; exact Hcl).
    destruct (start_safe t cl Hcl) as [S1 S2].
    assert (H3 : run t (denote cl) (part (F t) s0) = part_outcome (F t) (run t (denote cl) s0)).
    { eapply (run_part m (F t) t any_end); [exact S1|exact S2|apply start_hold; assumption]. }
    split; [congruence|]. split; [assumption|].
    rewrite H3 in H1. destruct th as [p|msg].
    - destruct H2 as (hp & Hsafe & Hnn & Hh). cbn [from_here] in H1.
      pose proof (step_part m (F t) t any_end hp p Hsafe Hnn c.2 Hh) as H.
      destruct (exec1 t p c.2) as [x|p' s'|a|msg s'| |] eqn:E.
      + right. subst p. cbn in H1. destruct (run t (denote cl) s0); cbn in H1; try discriminate. injection H1 as -> _. reflexivity.
      + left. exists p. rewrite E. auto.
      + right. destruct H as (Ha & H). rewrite (run_exec1 t p), H in H1.
        destruct (run t (denote cl) s0); cbn in H1; try discriminate. injection H1 as -> _. cbn.
        destruct p; cbn in H; try discriminate; repeat case_match; try discriminate. injection H as ->. eauto.
      + left. exists p. rewrite E. auto.
      + right. subst p. cbn in H1. destruct (run t (denote cl) s0); cbn in H1; try discriminate. reflexivity.
      + contradiction.
    - right. cbn in H1. destruct (run t (denote cl) s0); cbn in H1; try discriminate. injection H1 as -> _. reflexivity.
  Qed.
  Theorem apart_rest c a : tsteps (spawn cls, s0) c -> (forall t, t < length cls -> a ∉ F t) -> heap c.2 !! a = h !! a.
  Proof. intros Hst Ha. exact (ap_rest _ _ (apart_steps c Hst) a Ha). Qed.
End Apart.
