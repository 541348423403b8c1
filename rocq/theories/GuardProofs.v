(** * Calls are bracketed: they only write, read and unlock what they have locked
    themselves *)
From Coq Require Import String NArith.
From stdpp Require Import gmap.
From Verif Require Import Scalar Geometry Joint Link Prog NodeM ChainM FuncsM IkM Api SpecGuard.

Section Brk.
  Context {T : Type}.

  (** [brk Q held p]: with the mutexes [held] locked by [p] so far, [p] only
      touches what it holds, and [Q] holds of the result and what is still held *)
  Fixpoint brk {A} (Q : A -> gset nat -> Prop) (held : gset nat) (p : prog T A) : Prop :=
    match p with
    | Ret x => Q x held
    | Lock a k => a ∉ held -> brk Q ({[a]} ∪ held) k
    | Unlock a k => a ∈ held /\ brk Q (held ∖ {[a]}) k
    | Get a k => a ∈ held /\ forall n, brk Q held (k n)
    | Put a n k => a ∈ held /\ brk Q held k
    | New n k => forall a, brk Q held (k a)
    | Upgrade a k => forall b, brk Q held (k b)
    | Panic _ | NoFuel => True
    end.
  Definition bal {A} (p : prog T A) : Prop := forall held, brk (fun _ h' => h' = held) held p.

  Lemma brk_mono {A} (Q Q' : A -> gset nat -> Prop) p : (forall x h, Q x h -> Q' x h) ->
    forall held, brk Q held p -> brk Q' held p.
  Proof. intros HQ. induction p; cbn; intuition eauto. Qed.
  Lemma brk_bind {A B} (Q : B -> gset nat -> Prop) (p : prog T A) (f : A -> prog T B) :
    forall held, brk (fun x h => brk Q h (f x)) held p -> brk Q held (bind p f).
  Proof. induction p; cbn; intuition eauto. Qed.
  Lemma brk_bal {A B} (Q : B -> gset nat -> Prop) (p : prog T A) (f : A -> prog T B) held :
    bal p -> (forall x, brk Q held (f x)) -> brk Q held (bind p f).
  Proof. intros Hp Hf. apply brk_bind. eapply brk_mono; [|apply Hp]. cbn. intros x h ->. apply Hf. Qed.
  Lemma bal_ret {A} (x : A) : bal (Ret x).
  Proof. intros held. reflexivity. Qed.
  Lemma bal_panic {A} m : bal (Panic m : prog T A).
  Proof. intros held. exact I. Qed.
  Lemma bal_nofuel {A} : bal (NoFuel : prog T A).
  Proof. intros held. exact I. Qed.
  Lemma bal_bind {A B} (p : prog T A) (f : A -> prog T B) : bal p -> (forall x, bal (f x)) -> bal (bind p f).
  Proof. intros Hp Hf held. apply brk_bal; [assumption|]. intros x. apply Hf. Qed.
  Lemma bracket (a : nat) (held : gset nat) : a ∉ held -> ({[a]} ∪ held) ∖ {[a]} = held.
  Proof. intros H. apply set_eq. intros x. set_solver. Qed.
  (** a section: [a] is locked, read, something is done, [a] is unlocked *)
  Lemma bal_section {A B} (a : nat) (p : node T -> prog T A) (f : node T -> A -> prog T B) :
    (forall n, bal (p n)) -> (forall n x, bal (f n x)) ->
    bal (Lock a (Get a (fun n => bind (p n) (fun x => Unlock a (f n x))))).
  Proof.
    intros Hp Hf held. cbn. intros Ha. split; [set_solver|]. intros n. apply brk_bal; [apply Hp|].
    intros x. cbn. split; [set_solver|]. rewrite bracket by assumption. apply Hf.
  Qed.
  Lemma bal_read {A} a (f : node T -> A) : bal (read a f).
  Proof. apply (bal_section a (fun n => Ret tt) (fun n _ => Ret (f n))); intros; apply bal_ret. Qed.
  Lemma bal_modify a (f : node T -> node T) : bal (modify a f).
  Proof.
    intros held. cbn. intros Ha. split; [set_solver|]. intros n. split; [set_solver|]. split; [set_solver|].
    apply bracket. assumption.
  Qed.
  Lemma bal_new n : bal (new n : prog T nat).
  Proof. intros held a. reflexivity. Qed.
  Lemma bal_expect {A} (o : option A) m : bal (expect o m : prog T A).
  Proof. destruct o; [apply bal_ret|apply bal_panic]. Qed.
  Lemma bal_assert b m : bal (assert_ b m : prog T unit).
  Proof. destruct b; [apply bal_ret|apply bal_panic]. Qed.
  Lemma bal_mapM {A B} (f : A -> prog T B) l : (forall x, bal (f x)) -> bal (mapM f l).
  Proof.
    intros Hf. induction l; cbn; [apply bal_ret|]. apply bal_bind; [auto|]. intros y. apply bal_bind; [auto|].
    intros ys. apply bal_ret.
  Qed.
  Lemma bal_filterM {A} (f : A -> prog T bool) l : (forall x, bal (f x)) -> bal (filterM f l).
  Proof.
    intros Hf. induction l; cbn; [apply bal_ret|]. apply bal_bind; [auto|]. intros y. apply bal_bind; [auto|].
    intros ys. apply bal_ret.
  Qed.
  Lemma bal_forM {A} (f : A -> prog T unit) l : (forall x, bal (f x)) -> bal (forM_ f l).
  Proof. intros Hf. induction l; cbn; [apply bal_ret|]. apply bal_bind; auto. Qed.
  Lemma bal_forM_try {A} (f : A -> prog T (result T unit)) l : (forall x, bal (f x)) -> bal (forM_try f l).
  Proof. intros Hf. induction l; cbn; [apply bal_ret|]. apply bal_bind; [auto|]. intros [|]; [auto|apply bal_ret]. Qed.
  Lemma bal_findM {A} (f : A -> prog T bool) l : (forall x, bal (f x)) -> bal (findM f l).
  Proof. intros Hf. induction l; cbn; [apply bal_ret|]. apply bal_bind; [auto|]. intros [|]; [apply bal_ret|auto]. Qed.
  Lemma bal_positionM {A} (f : A -> prog T bool) l : (forall x, bal (f x)) -> bal (positionM f l).
  Proof.
    intros Hf. induction l; cbn; [apply bal_ret|]. apply bal_bind; [auto|]. intros [|]; [apply bal_ret|].
    apply bal_bind; [auto|]. intros x. apply bal_ret.
  Qed.
End Brk.

Ltac bal_tac :=
  repeat first
    [ apply bal_ret | apply bal_panic | apply bal_nofuel | apply bal_read | apply bal_modify | apply bal_new
    | apply bal_expect | apply bal_assert | assumption | solve [eauto]
    | apply bal_mapM; intros ? | apply bal_filterM; intros ? | apply bal_forM; intros ? | apply bal_forM_try; intros ?
    | apply bal_findM; intros ? | apply bal_positionM; intros ?
    | apply bal_bind; [|intros ?] ].

Section Calls.
  Context {T : Type} `{Sc : Scalar T}.

  Lemma bal_upgrade_section (a : nat) (g : node T -> option nat) :
    bal (lock a ;;; n <- get a ;;
         match g n with
         | Some w => b <- upgrade w ;; unlock a ;;; Ret (if b : bool then Some w else None)
         | None => unlock a ;;; Ret None
         end).
  Proof.
    intros held. cbn. intros Ha. split; [set_solver|]. intros n. destruct (g n) as [w|]; cbn.
    - intros b. split; [set_solver|]. apply bracket. assumption.
    - split; [set_solver|]. apply bracket. assumption.
  Qed.
  Lemma bal_parent a : bal (node_parent a : prog T _).
  Proof. apply (bal_upgrade_section a n_parent). Qed.
  Lemma bal_mimic_parent a : bal (node_mimic_parent a : prog T _).
  Proof. apply (bal_upgrade_section a n_mimic_parent). Qed.
  Lemma bal_children a : bal (node_children a : prog T _).
  Proof. apply bal_read. Qed.
  Lemma bal_set_parent a b : bal (node_set_parent a b : prog T _).
  Proof. unfold node_set_parent. bal_tac. Qed.
  Lemma bal_remove_parent a b : bal (node_remove_parent a b : prog T _).
  Proof. unfold node_remove_parent. bal_tac. Qed.
  Lemma bal_set_mimic_parent a b m : bal (node_set_mimic_parent a b m : prog T _).
  Proof. unfold node_set_mimic_parent. bal_tac. Qed.
  Lemma bal_mimic_loop self p cs : bal (mimic_loop self p cs).
  Proof.
    induction cs as [|c cs IH]; [apply bal_ret|]. intros held. cbn. intros Ha. split; [set_solver|]. intros n.
    destruct (n_mimic n) as [m|].
    - cbn. split; [set_solver|]. destruct (snd _); cbn; (split; [set_solver|]); rewrite bracket by assumption; [apply IH|reflexivity].
    - cbn. intros Hs. split; [set_solver|]. intros n0. split; [set_solver|]. intros Hc. exfalso. set_solver.
  Qed.
  Lemma bal_set_position a p : bal (node_set_joint_position a p).
  Proof.
    intros held. cbn. intros Ha. split; [set_solver|]. intros n. destruct (n_mimic_parent n).
    - cbn. split; [set_solver|]. apply bracket. assumption.
    - cbn. split; [set_solver|]. destruct (snd _); cbn.
      + apply brk_bal; [apply bal_mimic_loop|]. intros r. cbn. split; [set_solver|]. apply bracket. assumption.
      + split; [set_solver|]. apply bracket. assumption.
  Qed.
  Lemma bal_ancestors_next it : bal (ancestors_next it : prog T _).
  Proof. destruct it; cbn -[node_parent]; [|apply bal_ret]. apply bal_bind; [apply bal_parent|]. intros. apply bal_ret. Qed.
  Lemma bal_ancestors fuel it : bal (ancestors_collect fuel it : prog T _).
  Proof.
    revert it. induction fuel as [|fuel IH]; intros it; [apply bal_nofuel|]. cbn -[ancestors_next].
    apply bal_bind; [apply bal_ancestors_next|]. intros [[a it']|]; [|apply bal_ret]. bal_tac.
  Qed.
  Lemma bal_ancestors_until fuel it r : bal (ancestors_until fuel it r : prog T _).
  Proof.
    revert it. induction fuel as [|fuel IH]; intros it; [apply bal_nofuel|]. cbn -[ancestors_next].
    apply bal_bind; [apply bal_ancestors_next|]. intros [[a it']|]; [|apply bal_ret].
    destruct (decide (a = r)); bal_tac.
  Qed.
  Lemma bal_descendants_next st : bal (descendants_next st : prog T _).
  Proof. destruct st; cbn -[node_children]; [apply bal_ret|]. apply bal_bind; [apply bal_children|]. intros. apply bal_ret. Qed.
  Lemma bal_descendants fuel st : bal (descendants_collect fuel st : prog T _).
  Proof.
    revert st. induction fuel as [|fuel IH]; intros it; [apply bal_nofuel|]. cbn -[descendants_next].
    apply bal_bind; [apply bal_descendants_next|]. intros [[a it']|]; [|apply bal_ret]. bal_tac.
  Qed.
  Lemma bal_from_nodes l : bal (from_nodes l : prog T _).
  Proof. unfold from_nodes. bal_tac. Qed.
  Lemma bal_iter_joints {A} c (g : joint T -> prog T A) : (forall j, bal (g j)) -> bal (iter_joints c g).
  Proof.
    intros Hg. unfold iter_joints. apply bal_mapM. intros a.
    apply (bal_section a (fun n => g (n_joint n)) (fun n x => Ret x)); intros; [apply Hg|apply bal_ret].
  Qed.
  Lemma bal_links l : bal (links_loop l : prog T _).
  Proof.
    induction l as [|a l IH]; cbn -[read]; [apply bal_ret|]. apply bal_bind; [apply bal_read|]. intros [|]; [|assumption].
    cbn. apply (bal_section a (fun n => expect (n_link n) _) (fun n x => bind (links_loop l) (fun xs => Ret (x :: xs))));
      intros; bal_tac.
  Qed.
  Lemma bal_wt a : bal (node_world_transform a : prog T _).
  Proof. apply bal_read. Qed.
  Lemma bal_pwt a : bal (parent_world_transform a : prog T _).
  Proof. unfold parent_world_transform. apply bal_bind; [apply bal_parent|]. intros [|]; [apply bal_wt|apply bal_ret]. Qed.
  Lemma bal_pwv a : bal (parent_world_velocity a : prog T _).
  Proof. unfold parent_world_velocity. apply bal_bind; [apply bal_parent|]. intros [|]; [apply bal_read|apply bal_ret]. Qed.
  Lemma bal_update_transform a : bal (update_transform a : prog T _).
  Proof. unfold update_transform. apply bal_bind; [apply bal_pwt|]. intros. bal_tac. Qed.
  Lemma bal_update_transforms c : bal (update_transforms c : prog T _).
  Proof. apply bal_mapM, bal_update_transform. Qed.
  Lemma bal_velocity_in_match a j x y : bal (velocity_in_match a j x y : prog T _).
  Proof.
    unfold velocity_in_match. destruct (j_type j); [apply bal_ret| |].
    - apply bal_bind; [apply bal_parent|]. intros. apply bal_bind; [apply bal_expect|]. intros. apply bal_bind; [apply bal_read|].
      intros. apply bal_bind; [apply bal_wt|]. intros. bal_tac.
    - apply bal_bind; [apply bal_wt|]. intros. bal_tac.
  Qed.
  Lemma bal_update_velocity a : bal (update_velocity a : prog T _).
  Proof.
    unfold update_velocity. apply bal_bind; [apply bal_pwt|]. intros x. apply bal_bind; [apply bal_expect|]. intros ptf.
    apply bal_bind; [apply bal_pwv|]. intros y. apply bal_bind; [apply bal_expect|]. intros pv. cbn [bind lock get].
    apply (bal_section a (fun n => velocity_in_match a (n_joint n) ptf pv) (fun n v => bind (modify a _) (fun _ => Ret v)));
      intros; [apply bal_velocity_in_match|bal_tac].
  Qed.
  Lemma bal_update_velocities c : bal (update_velocities c : prog T _).
  Proof. unfold update_velocities. apply bal_bind; [apply bal_update_transforms|]. intros. apply bal_mapM, bal_update_velocity. Qed.
  Lemma bal_update_links c : bal (update_link_transforms c : prog T _).
  Proof.
    unfold update_link_transforms. apply bal_bind; [apply bal_update_transforms|]. intros. apply bal_forM. intros a.
    unfold update_link_transform. apply bal_bind; [apply bal_pwt|]. intros. bal_tac.
  Qed.
  Lemma bal_clone_node a : bal (clone_node a : prog T _).
  Proof.
    unfold clone_node. cbn [bind lock get unlock].
    apply (bal_section a (fun n => node_new (n_joint n)) (fun n nn =>
      Lock a (Get a (fun n => bind (node_set_link nn (n_link n)) (fun _ => Unlock a (Ret nn)))))); intros.
    - apply bal_new.
    - apply (bal_section a (fun n => node_set_link x (n_link n)) (fun _ _ => Ret x)); intros; [apply bal_modify|apply bal_ret].
  Qed.
  Lemma bal_clone_connect l l' x : bal (clone_connect l l' x : prog T _).
  Proof.
    unfold clone_connect. cbv zeta. apply (bal_bind (node_parent _)); [apply bal_parent|]. intros op. apply bal_bind; [|intros _].
    - destruct op as [p|]; [|apply bal_ret]. bal_tac; apply bal_set_parent.
    - apply (bal_bind (node_mimic_parent _)); [apply bal_mimic_parent|]. intros [m|]; [|apply bal_ret]. apply bal_bind; [apply bal_expect|]. intros i.
      apply bal_bind; [apply bal_expect|]. intros nm. intros held. cbn -[node_set_mimic_parent]. intros Ha. split; [set_solver|]. intros n.
      apply brk_bal; [apply bal_expect|]. intros mi. apply brk_bal; [apply bal_set_mimic_parent|]. intros _. cbn.
      split; [set_solver|]. apply bracket. assumption.
  Qed.
  Lemma bal_from_root fuel a : bal (from_root fuel a : prog T _).
  Proof. unfold from_root. apply bal_bind; [apply bal_descendants|]. intros. apply bal_from_nodes. Qed.
  Lemma bal_clone fuel c : bal (chain_clone fuel c : prog T _).
  Proof.
    unfold chain_clone. destruct (c_nodes c) as [|a0 l] eqn:E; [apply bal_ret|].
    apply bal_bind; [apply bal_read|]. intros. apply bal_bind; [apply bal_assert|]. intros.
    apply bal_bind; [apply bal_mapM, bal_clone_node|]. intros.
    apply bal_bind; [apply bal_forM; intros; apply bal_clone_connect|]. intros.
    apply bal_bind; [apply bal_expect|]. intros. apply bal_bind; [apply bal_read|]. intros. apply bal_bind; [apply bal_assert|]. intros.
    apply bal_from_root.
  Qed.
  Lemma bal_fmt fuel l a level : bal (fmt_with_indent_level fuel l a level : prog T _).
  Proof.
    revert a level. induction fuel as [|fuel IH]; intros a level; [apply bal_nofuel|]. cbn -[node_fmt].
    apply bal_bind; [destruct (decide _); [apply bal_bind; [apply bal_read|intros; apply bal_ret]|apply bal_ret]|].
    intros line. apply (bal_section a (fun n => mapM _ (n_children n)) (fun _ rest => Ret _)); intros; [|apply bal_ret].
    apply bal_mapM. auto.
  Qed.
  Lemma bal_usize_sub ovf a b : bal (usize_sub ovf a b : prog T _).
  Proof. unfold usize_sub. destruct (decide _); [apply bal_ret|]. destruct ovf; [apply bal_panic|apply bal_ret]. Qed.
  Lemma bal_all_one_child l : bal (all_one_child l : prog T _).
  Proof.
    induction l as [|a l IH]; cbn -[node_children]; [apply bal_ret|]. apply bal_bind; [apply bal_children|]. intros.
    destruct (decide _); [assumption|apply bal_ret].
  Qed.
  Lemma bal_end_fold acc l : bal (end_fold acc l : prog T _).
  Proof. revert acc. induction l as [|a l IH]; intros acc; cbn -[read]; [apply bal_ret|]. apply bal_bind; [apply bal_read|]. auto. Qed.
  Lemma bal_end_transform c : bal (end_transform c : prog T _).
  Proof. apply bal_end_fold. Qed.
  Lemma bal_jacobian c : bal (jacobian c : prog T _).
  Proof.
    unfold jacobian. apply bal_bind; [apply bal_end_transform|]. intros. apply bal_bind; [apply bal_update_transforms|]. intros.
    apply bal_bind; [apply bal_iter_joints; intros; apply bal_bind; [apply bal_expect|]|]; intros.
    - unfold jacobian_column. destruct (j_type j); bal_tac.
    - destruct (decide _); bal_tac.
  Qed.
  Lemma bal_com_loop acc l : bal (com_loop acc l : prog T _).
  Proof.
    revert acc. induction l as [|a l IH]; intros acc; cbn -[com_step]; [apply bal_ret|]. apply bal_bind; [|auto].
    unfold com_step. apply bal_bind; [apply bal_wt|]. intros [|]; [apply bal_read|apply bal_ret].
  Qed.
  Lemma bal_com c : bal (center_of_mass c : prog T _).
  Proof. unfold center_of_mass. apply bal_bind; [apply bal_update_transforms|]. intros. apply bal_bind; [apply bal_com_loop|]. intros. apply bal_ret. Qed.
  Lemma bal_positions c : bal (joint_positions c : prog T _).
  Proof. apply bal_iter_joints. intros. apply bal_expect. Qed.
  Lemma bal_set_positions c ps : bal (set_joint_positions c ps : prog T _).
  Proof. unfold set_joint_positions. destruct (decide _); [|apply bal_ret]. apply bal_forM_try. intros. apply bal_set_position. Qed.
  Lemma bal_set_clamped c ps : bal (set_joint_positions_clamped c ps : prog T _).
  Proof. apply bal_forM. intros. apply bal_modify. Qed.
  Lemma bal_remove_rows ovf i r ops m : bal (remove_rows ovf i r ops m : prog T _).
  Proof.
    revert i r m. induction ops as [|[|] ops IH]; intros; cbn -[usize_sub]; [apply bal_ret|auto|].
    apply bal_bind; [apply bal_usize_sub|]. intros. destruct (decide _); [auto|apply bal_panic].
  Qed.
  Lemma bal_remove_columns {A} ovf i idx (l : list A) : bal (remove_columns ovf i idx l : prog T _).
  Proof.
    revert i l. induction idx as [|j idx IH]; intros; cbn -[usize_sub remove_nth]; [apply bal_ret|].
    apply bal_bind; [apply bal_usize_sub|]. intros. apply bal_bind; [|auto].
    unfold remove_nth. destruct (decide _); [apply bal_ret|apply bal_panic].
  Qed.
  Lemma bal_insert_rows idx (l : list T) : bal (insert_rows idx l : prog T _).
  Proof.
    revert l. induction idx as [|j idx IH]; intros; cbn -[insert_nth]; [apply bal_ret|]. apply bal_bind; [|auto].
    unfold insert_nth. destruct (decide _); [apply bal_ret|apply bal_panic].
  Qed.
  Lemma bal_new_positions ovf la s o e j av rq idx : bal (new_positions ovf la s o e j av rq idx : prog T _).
  Proof.
    unfold new_positions. destruct (decide _).
    - destruct (nullspace_function s).
      + apply bal_bind; [apply bal_expect|]. intros. apply bal_bind; [apply bal_expect|]. intros.
        apply bal_bind; [apply bal_remove_columns|]. intros. destruct (decide _); [|apply bal_panic].
        apply bal_bind; [apply bal_insert_rows|]. intros. apply bal_ret.
      + apply bal_bind; [apply bal_expect|]. intros. apply bal_bind; [apply bal_insert_rows|]. intros. apply bal_ret.
    - destruct (lu_solve la j e); apply bal_ret.
  Qed.
  Lemma bal_one_loop ovf la s c tg ops idx : bal (solve_one_loop_with_constraints ovf la s c tg ops idx : prog T _).
  Proof.
    unfold solve_one_loop_with_constraints. apply bal_bind; [apply bal_positions|]. intros. apply bal_bind; [apply bal_usize_sub|]. intros.
    apply bal_bind; [apply bal_end_transform|]. intros. apply bal_bind; [apply bal_jacobian|]. intros.
    apply bal_bind; [apply bal_remove_rows|]. intros. apply bal_bind; [apply bal_remove_columns|]. intros.
    apply bal_bind; [apply bal_new_positions|]. intros [|]; [|apply bal_ret].
    apply bal_bind; [apply bal_set_clamped|]. intros. apply bal_bind; [apply bal_end_transform|]. intros. apply bal_ret.
  Qed.
  Lemma bal_ik_loop ovf la s c tg ops idx orig n last : bal (ik_loop ovf la s c tg ops idx orig n last : prog T _).
  Proof.
    revert last. induction n as [|n IH]; intros last; cbn -[set_joint_positions solve_one_loop_with_constraints].
    - apply bal_bind; [apply bal_set_positions|]. intros [|]; [|apply bal_ret]. bal_tac.
    - apply bal_bind; [apply bal_one_loop|]. intros [|]; [|apply bal_ret]. destruct (reached _ _); [|auto].
      apply bal_bind; [apply bal_positions|]. intros. apply bal_bind; [apply bal_set_clamped|]. intros. apply bal_ret.
  Qed.
  Lemma bal_ignored c l : bal (ignored_indices c l : prog T _).
  Proof.
    induction l as [|x l IH]; cbn -[positionM]; [apply bal_ret|]. apply bal_bind; [bal_tac|]. intros [|]; bal_tac.
  Qed.
  Lemma bal_solve_with ovf la s c tg cs : bal (solve_with_constraints ovf la s c tg cs : prog T _).
  Proof.
    unfold solve_with_constraints. apply bal_bind; [apply bal_positions|]. intros orig. apply bal_bind.
    - unfold solve_with_constraints_internal. apply bal_bind; [apply bal_positions|]. intros.
      apply bal_bind; [apply bal_usize_sub|]. intros. destruct (decide _); [apply bal_ret|].
      apply bal_bind; [apply bal_ignored|]. intros [|]; [apply bal_ik_loop|apply bal_ret].
    - intros re. destruct (is_err re); [|apply bal_ret]. apply bal_bind; [apply bal_set_positions|]. intros [|]; apply bal_ret.
  Qed.

  (** every call is bracketed *)
  Lemma bal_interp {R} (k : api T R) : bal (interp k).
  Proof.
    destruct k; cbn [interp];
      first [ apply bal_new | apply bal_read | apply bal_modify | apply bal_parent | apply bal_mimic_parent | apply bal_ancestors
            | apply bal_descendants | apply bal_set_parent | apply bal_remove_parent | apply bal_set_position | apply bal_set_mimic_parent
            | apply bal_from_nodes | apply bal_from_root | apply bal_links | apply bal_positions | apply bal_set_positions
            | apply bal_set_clamped | apply bal_update_transforms | apply bal_update_velocities | apply bal_update_links
            | apply bal_clone | apply bal_end_transform | apply bal_jacobian | apply bal_com | apply bal_solve_with | idtac ].
    - unfold from_end. apply bal_bind; [apply bal_ancestors|]. intros. apply bal_from_nodes.
    - unfold from_end_to_root. apply bal_bind; [apply bal_ancestors_until|]. intros. apply bal_from_nodes.
    - unfold chain_set_origin. apply bal_bind; [apply bal_expect|]. intros. apply bal_modify.
    - unfold chain_origin. apply bal_bind; [apply bal_expect|]. intros. apply bal_read.
    - apply bal_iter_joints. intros. apply bal_ret.
    - unfold chain_find. bal_tac.
    - apply bal_forM. intros. apply bal_modify.
    - unfold chain_fmt. apply bal_bind; [apply bal_expect|]. intros. apply bal_fmt.
    - unfold try_new. apply bal_bind; [apply bal_usize_sub|]. intros. apply bal_bind; [apply bal_all_one_child|]. intros. apply bal_ret.
  Qed.
  Lemma bal_denote {A} (cl : client T A) : bal (denote cl).
  Proof. induction cl as [x|R k next IH]; cbn -[interp]; [apply bal_ret|]. apply bal_bind; [apply bal_interp|assumption]. Qed.
End Calls.

(** ** Runs while some mutexes stay locked *)
Section Held.
  Context {T : Type}.

  Definition with_locks (L : gmap nat nat) (s : sh T) : sh T := set_locks s (L ∪ locks s).

  Lemma run_held {A} (t : nat) (L : gmap nat nat) (p : prog T A) : forall s held (Q : A -> gset nat -> Prop),
    brk Q held p -> poison s = ∅ -> (forall a, a ∈ held -> locks s !! a = Some t) ->
    (forall a, is_Some (locks s !! a) -> a ∈ held) -> (forall a, a ∈ held -> L !! a = None) ->
    match list_find (fun a => is_Some (L !! a)) (acquired t p s) with
    | None => same_outcome L (run t p s) (run t p (with_locks L s))
    | Some (_, a) => exists s', run t p (with_locks L s) = Deadlock a s'
    end.
  Proof.
    induction p as [x|a k IH|a k IH|a k IH|a n k IH|n k IH|a k IH|m|]; intros s held Q Hb Hpo Hheld Hlk Hdis; cbn in Hb |- *.
    - auto.
    - destruct (heap s !! a) as [n|] eqn:En.
      2:{ rewrite decide_False by (intros [[? Hx] _]; discriminate). cbn. exact I. }
      destruct (locks s !! a) as [u|] eqn:El.
      { rewrite decide_False by (intros (_ & Hx & _); discriminate). cbn.
        rewrite lookup_union_r by (apply Hdis, Hlk; rewrite El; eauto). rewrite El. cbn. auto. }
      assert (Ha : a ∉ held) by (intros Ha; apply Hheld in Ha; congruence).
      assert (Hnp : a ∉ poison s) by (rewrite Hpo; set_solver +).
      rewrite decide_True by eauto. rewrite (decide_False (P := a ∈ poison s)) by assumption.
      cbn. destruct (L !! a) as [v|] eqn:EL.
      + rewrite decide_True by eauto. rewrite lookup_union, EL, El. cbn. eauto.
      + rewrite decide_False by (intros [? ?]; discriminate). rewrite lookup_union, EL, El. cbn.
        rewrite (decide_False (P := a ∈ poison s)) by assumption.
        assert (Hw : set_locks (with_locks L s) (<[a := t]> (L ∪ locks s)) = with_locks L (set_locks s (<[a := t]> (locks s)))).
        { unfold with_locks, set_locks. cbn. f_equal. rewrite insert_union_r; [reflexivity|assumption]. }
        rewrite Hw.
        assert (HI := IH (set_locks s (<[a := t]> (locks s))) ({[a]} ∪ held) Q (Hb Ha) Hpo).
        match type of HI with ?P1 -> ?P2 -> ?P3 -> _ => assert (H1 : P1); [|assert (H2 : P2); [|assert (H3 : P3)]] end.
        { intros b. cbn. intros Hb'. destruct (decide (b = a)) as [->|Hne].
          - apply lookup_insert.
          - rewrite lookup_insert_ne by auto. apply Hheld. set_solver. }
        { intros b. cbn. destruct (decide (b = a)) as [->|Hne]; [set_solver|].
          rewrite lookup_insert_ne by auto. intros Hb'%Hlk. set_solver. }
        { intros b [->%elem_of_singleton|Hb']%elem_of_union; auto. }
        specialize (HI H1 H2 H3).
        destruct (list_find _ (acquired t k _)) as [[i b]|] eqn:Ef; cbn; assumption.
    - destruct Hb as [Ha Hb]. rewrite lookup_union_r by auto. rewrite !(decide_True (P := locks s !! a = Some t)) by auto.
      assert (Hw : set_locks (with_locks L s) (delete a (L ∪ locks s)) = with_locks L (set_locks s (delete a (locks s)))).
      { unfold with_locks, set_locks. cbn. f_equal. rewrite delete_union. rewrite (delete_notin L) by auto. reflexivity. }
      rewrite Hw. apply (IH (set_locks s (delete a (locks s))) (held ∖ {[a]}) Q Hb Hpo).
      + intros b Hb'. cbn. rewrite lookup_delete_ne by set_solver. apply Hheld. set_solver.
      + intros b. cbn. destruct (decide (b = a)) as [->|Hne].
        * rewrite lookup_delete. intros [? ?]; discriminate.
        * rewrite lookup_delete_ne by auto. intros Hb'%Hlk. set_solver.
      + intros b Hb'. apply Hdis. set_solver.
    - destruct Hb as [Ha Hb]. rewrite lookup_union_r by auto. rewrite !(decide_True (P := locks s !! a = Some t)) by auto.
      destruct (heap s !! a) as [n|]; [|exact I]. apply (IH n s held Q); auto.
    - destruct Hb as [Ha Hb]. rewrite lookup_union_r by auto. rewrite !(decide_True (P := locks s !! a = Some t)) by auto.
      change (set_heap (with_locks L s) (<[a := n]> (heap s))) with (with_locks L (set_heap s (<[a := n]> (heap s)))).
      apply (IH (set_heap s (<[a := n]> (heap s))) held Q); auto.
    - change (alloc (with_locks L s) n) with (with_locks L (alloc s n)).
      apply (IH (nxt s) (alloc s n) held Q); auto.
    - apply (IH (bool_decide (is_Some (heap s !! a))) s held Q); auto.
    - auto.
    - auto.
  Qed.

  (** ** A guard in a concurrent execution *)
  (** a step of another thread leaves the guarded node alone *)
  Lemma other_step {A} u (p p' : prog T A) s s' a t : u <> t -> locks s !! a = Some t -> a < nxt s ->
    exec1 u p s = RStep p' s' -> locks s' !! a = Some t /\ heap s' !! a = heap s !! a /\ a < nxt s'.
  Proof.
    intros Hut Hl Hn. destruct p as [x|b k|b k|b k|b n k|n k|b k|m|]; cbn; intros H; try discriminate.
    - destruct (heap s !! b) eqn:E; [|discriminate]. destruct (locks s !! b) eqn:E2; [discriminate|].
      destruct (decide _); [discriminate|]. injection H as <- <-. cbn. rewrite lookup_insert_ne by congruence. auto.
    - destruct (decide _); [|discriminate]. injection H as <- <-. cbn. rewrite lookup_delete_ne by congruence. auto.
    - destruct (decide _); [|discriminate]. destruct (heap s !! b); [|discriminate]. injection H as <- <-. auto.
    - destruct (decide _); [|discriminate]. injection H as <- <-. cbn. rewrite lookup_insert_ne by congruence. auto.
    - injection H as <- <-. cbn. rewrite lookup_insert_ne by lia. auto.
    - injection H as <- <-. auto.
  Qed.
  Lemma other_panic {A} u (p : prog T A) s s' m a t : u <> t -> locks s !! a = Some t -> a < nxt s ->
    exec1 u p s = RPanic m s' -> locks s' !! a = Some t /\ heap s' !! a = heap s !! a /\ a < nxt s'.
  Proof.
    intros Hut Hl Hn H. assert (s' = unwind u s) as ->.
    { destruct p as [x|b k|b k|b k|b n k|n k|b k|m'|]; cbn in H; try discriminate.
      - destruct (heap s !! b) eqn:E; [|discriminate]. destruct (locks s !! b) eqn:E2; [discriminate|].
        destruct (decide _); [|discriminate]. congruence.
      - destruct (decide _); discriminate.
      - destruct (decide _); [|discriminate]. destruct (heap s !! b); discriminate.
      - destruct (decide _); discriminate.
      - congruence. }
    cbn. repeat split; [|assumption]. apply map_filter_lookup_Some. cbn. split; [assumption|congruence].
  Qed.
  Lemma nxt_grows {A} u (p p' : prog T A) s s' : exec1 u p s = RStep p' s' -> nxt s <= nxt s'.
  Proof.
    destruct p as [x|b k|b k|b k|b n k|n k|b k|m|]; cbn; intros H; try discriminate.
    - destruct (heap s !! b) eqn:E; [|discriminate]. destruct (locks s !! b) eqn:E2; [discriminate|].
      destruct (decide _); [discriminate|]. injection H as <- <-. auto.
    - destruct (decide _); [|discriminate]. injection H as <- <-. auto.
    - destruct (decide _); [|discriminate]. destruct (heap s !! b); [|discriminate]. injection H as <- <-. auto.
    - destruct (decide _); [|discriminate]. injection H as <- <-. auto.
    - injection H as <- <-. cbn. auto.
    - injection H as <- <-. auto.
  Qed.
  (** a step of the holder inside a bracketed program *)
  Lemma own_step {A B} t (q : prog T A) (f : A -> prog T B) p' s s' a held (Q : A -> gset nat -> Prop) :
    brk Q held q -> (forall b, b ∈ held -> locks s !! b = Some t) -> a ∉ held ->
    locks s !! a = Some t -> a < nxt s -> exec1 t (bind q f) s = RStep p' s' ->
    (exists x, q = Ret x) \/
    exists q' held', p' = bind q' f /\ brk Q held' q' /\ (forall b, b ∈ held' -> locks s' !! b = Some t) /\ a ∉ held' /\
      locks s' !! a = Some t /\ heap s' !! a = heap s !! a /\ a < nxt s'.
  Proof.
    intros Hb Hh Ha Hl Hn. destruct q as [x|b k|b k|b k|b n k|n k|b k|m|]; cbn in Hb |- *; intros H; try discriminate; [left; eauto|right..].
    - destruct (heap s !! b) eqn:E; [|discriminate]. destruct (locks s !! b) eqn:E2; [discriminate|].
      destruct (decide _); [discriminate|]. injection H as <- <-. exists k, ({[b]} ∪ held). split; [reflexivity|].
      split; [apply Hb; intros Hx%Hh; congruence|]. cbn. split.
      + intros c [->%elem_of_singleton|Hc]%elem_of_union; [apply lookup_insert|]. rewrite lookup_insert_ne; [auto|].
        intros ->. apply Hh in Hc. congruence.
      + assert (a <> b) by congruence. split; [set_solver|]. rewrite lookup_insert_ne by auto. auto.
    - destruct Hb as [Hin Hb]. destruct (decide _); [|discriminate]. injection H as <- <-. exists k, (held ∖ {[b]}).
      split; [reflexivity|]. split; [assumption|]. cbn. assert (a <> b) by congruence. split.
      + intros c Hc. rewrite lookup_delete_ne by set_solver. apply Hh. set_solver.
      + split; [set_solver|]. rewrite lookup_delete_ne by auto. auto.
    - destruct Hb as [Hin Hb]. destruct (decide _); [|discriminate]. destruct (heap s !! b) as [n|]; [|discriminate].
      injection H as <- <-. exists (k n), held. auto 10.
    - destruct Hb as [Hin Hb]. destruct (decide _); [|discriminate]. injection H as <- <-. exists k, held. cbn.
      assert (a <> b) by congruence. rewrite lookup_insert_ne by auto. auto 10.
    - injection H as <- <-. exists (k (nxt s)), held. cbn. rewrite lookup_insert_ne by lia. auto 10.
    - injection H as <- <-. eexists (k _), held. auto 10.
  Qed.

  Definition holding_rest {A} (a : nat) (n : node T) (q : prog T A) : prog T (node T * node T * A) :=
    bind q (fun x => Get a (fun n' => Unlock a (Ret (n, n', x)))).
  (** how far the holder is *)
  Inductive phase {A} (t a : nat) (p : prog T A) (s : sh T) : thread T (node T * node T * A) -> Prop :=
  | Before : a < nxt s -> phase t a p s (Running (while_holding a p))
  | Locked : a < nxt s -> locks s !! a = Some t -> phase t a p s (Running (Get a (fun n => holding_rest a n p)))
  | Inside n q held Q : a < nxt s -> locks s !! a = Some t -> heap s !! a = Some n -> brk Q held q ->
      (forall b, b ∈ held -> locks s !! b = Some t) -> a ∉ held -> phase t a p s (Running (holding_rest a n q))
  | Looked n x : phase t a p s (Running (Unlock a (Ret (n, n, x))))
  | Dropped n x : phase t a p s (Running (Ret (n, n, x)))
  | Failed m : phase t a p s (Dead m).
  Arguments Before {A}. Arguments Locked {A}. Arguments Inside {A}. Arguments Looked {A}. Arguments Dropped {A}. Arguments Failed {A}.

  Lemma phase_step {A} t a (p : prog T A) (c c' : list (thread T (node T * node T * A)) * sh T) th :
    bal p -> tstep c c' -> c.1 !! t = Some th -> phase t a p c.2 th ->
    exists th', c'.1 !! t = Some th' /\ phase t a p c'.2 th'.
  Proof.
    intros Hbal Hstep Hth Hph. destruct Hstep as [u ths s q q' s' Hu Hx|u ths s q m s' Hu Hx]; cbn in *.
    - destruct (decide (u = t)) as [->|Hne].
      + exists (Running q'). split; [apply list_lookup_insert; eapply lookup_lt_Some; eauto|].
        rewrite Hu in Hth. injection Hth as <-. inversion Hph as [Hn Heq|Hn Hl Heq|n q0 held Q Hn Hl Hh Hb Hhe Hah Heq|n x Heq|n x Heq|]; subst q.
        * cbn in Hx. destruct (heap s !! a) eqn:E; [|discriminate]. destruct (locks s !! a) eqn:E2; [discriminate|].
          destruct (decide _); [discriminate|]. injection Hx as <- <-. apply Locked; [assumption|]. apply lookup_insert.
        * cbn in Hx. rewrite decide_True in Hx by assumption. destruct (heap s !! a) as [n|] eqn:E; [|discriminate].
          injection Hx as <- <-. eapply (Inside t a p s n p ∅ (fun _ h' => h' = ∅) Hn Hl E (Hbal ∅)); set_solver.
        * destruct (own_step t q0 _ q' s s' a held Q Hb Hhe Hah Hl Hn Hx) as [[x ->]|(q1 & held' & -> & H1 & H2 & H3 & H4 & H5 & H6)].
          -- cbn in Hx. rewrite decide_True in Hx by assumption. rewrite Hh in Hx. injection Hx as <- <-. apply Looked.
          -- eapply (Inside t a p s' n q1 held' Q); auto. congruence.
        * cbn in Hx. destruct (decide _); [|discriminate]. injection Hx as <- <-. apply Dropped.
        * discriminate.
      + exists th. split; [rewrite list_lookup_insert_ne by auto; assumption|].
        destruct Hph as [Hn|Hn Hl|n q0 held Q Hn Hl Hh Hb Hhe Hah|n x|n x|].
        * apply Before. pose proof (nxt_grows _ _ _ _ _ Hx). lia.
        * destruct (other_step u q q' s s' a t Hne Hl Hn Hx) as (H1 & H2 & H3). apply Locked; auto.
        * destruct (other_step u q q' s s' a t Hne Hl Hn Hx) as (H1 & H2 & H3).
          eapply (Inside t a p s' n q0 held Q); auto; [congruence|]. intros b Hb'.
          pose proof (Hhe b Hb') as Hlb. clear - Hne Hlb Hx.
          destruct q as [x|c k|c k|c k|c n' k|n' k|c k|m|]; cbn in Hx; try discriminate.
          -- destruct (heap s !! c) eqn:E; [|discriminate]. destruct (locks s !! c) eqn:E2; [discriminate|].
             destruct (decide _); [discriminate|]. injection Hx as <- <-. cbn. rewrite lookup_insert_ne by congruence. auto.
          -- destruct (decide _); [|discriminate]. injection Hx as <- <-. cbn. rewrite lookup_delete_ne by congruence. auto.
          -- destruct (decide _); [|discriminate]. destruct (heap s !! c); [|discriminate]. injection Hx as <- <-. auto.
          -- destruct (decide _); [|discriminate]. injection Hx as <- <-. cbn. auto.
          -- injection Hx as <- <-. cbn. auto.
          -- injection Hx as <- <-. auto.
        * apply Looked.
        * apply Dropped.
        * apply Failed.
    - destruct (decide (u = t)) as [->|Hne].
      + exists (Dead m). split; [apply list_lookup_insert; eapply lookup_lt_Some; eauto|apply Failed].
      + exists th. split; [rewrite list_lookup_insert_ne by auto; assumption|].
        assert (Hs' : s' = unwind u s).
        { destruct q as [x|b k|b k|b k|b n k|n k|b k|m'|]; cbn in Hx; try discriminate.
          - destruct (heap s !! b) eqn:E; [|discriminate]. destruct (locks s !! b) eqn:E2; [discriminate|].
            destruct (decide _); [|discriminate]. congruence.
          - destruct (decide _); discriminate.
          - destruct (decide _); [|discriminate]. destruct (heap s !! b); discriminate.
          - destruct (decide _); discriminate.
          - congruence. }
        assert (Hk : forall b, locks s !! b = Some t -> locks s' !! b = Some t).
        { intros b Hb. subst s'. apply map_filter_lookup_Some. cbn. split; [assumption|congruence]. }
        destruct Hph as [Hn|Hn Hl|n q0 held Q Hn Hl Hh Hb Hhe Hah|n x|n x|].
        * apply Before. subst s'. exact Hn.
        * apply Locked; [subst s'; exact Hn|auto].
        * eapply (Inside t a p s' n q0 held Q); auto; subst s'; assumption.
        * apply Looked.
        * apply Dropped.
        * apply Failed.
  Qed.
  Lemma guard_stable {A} (ths : list (thread T (node T * node T * A))) s t a (p : prog T A) c n n' x :
    bal p -> ths !! t = Some (Running (while_holding a p)) -> a < nxt s ->
    tsteps (ths, s) c -> c.1 !! t = Some (Running (Ret (n, n', x))) -> n' = n.
  Proof.
    intros Hbal Ht Ha Hs Hc.
    assert (Hph : exists th, c.1 !! t = Some th /\ phase t a p c.2 th).
    { assert (H0 : exists th, (ths, s).1 !! t = Some th /\ phase t a p (ths, s).2 th) by (eexists; split; [exact Ht|apply Before; exact Ha]).
      revert H0. clear - Hbal Hs. induction Hs as [c|c1 c2 c3 H1 _ IH]; [auto|]. intros (th & Hth & Hp).
      apply IH. eapply phase_step; eauto. }
    destruct Hph as (th & Hth & Hp). rewrite Hc in Hth. injection Hth as <-.
    inversion Hp as [Hn Heq|Hn Hl Heq|n1 q0 held Q Hn Hl Hh Hb Hhe Hah Heq|n1 x1 Heq|n1 x1 Heq|].
    - destruct q0; discriminate Heq.
    - reflexivity.
  Qed.
End Held.
