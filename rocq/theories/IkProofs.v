(** * Proofs about the inverse kinematics solver *)
From Coq Require Import String NArith.
From stdpp Require Import gmap.
From Verif Require Import Scalar Geometry Joint Link Prog NodeM ChainM FuncsM IkM RunLemmas
  SpecJoint SpecNode RangeProofs JointProofs NodeProofs SpecGraph GraphProofs SpecChain ChainProofs
  SpecFK FKProofs VelocityProofs IkLookup SpecIk.

Section IkProofs.
  Context {T : Type} `{Sc : Scalar T}.
  Implicit Types (h : gmap nat (node T)).

  (** ** the relations as equations *)
  Definition strip (n : node T) : node T :=
    set_n_joint n (joint_set_unchecked (n_joint n) (j_position (n_joint n))).
  Definition bare (n : node T) : node T := set_n_joint n (joint_set_unchecked (n_joint n) szero).
  Definition unch h h' : Prop := forall a, strip <$> h' !! a = strip <$> h !! a.
  Definition frozen h h' : Prop := forall a, bare <$> h' !! a = bare <$> h !! a.
  Definition offm (m : list nat) h h' : Prop := forall a, a ∉ m -> strip <$> h' !! a = strip <$> h !! a.

  Lemma strip_eq n n' : strip n' = strip n <-> same_but_caches n n'.
  Proof.
    destruct n as [a1 a2 [] a4 a5 a6 a7], n' as [b1 b2 [] b4 b5 b6 b7].
    unfold strip, same_but_caches, set_n_joint, joint_set_unchecked. cbn. split.
    - intros E. injection E. intros. subst. repeat split.
    - intros. destruct_and!. subst. reflexivity.
  Qed.
  Lemma bare_eq n n' : bare n' = bare n <-> same_but_position n n'.
  Proof.
    destruct n as [a1 a2 [] a4 a5 a6 a7], n' as [b1 b2 [] b4 b5 b6 b7].
    unfold bare, same_but_position, set_n_joint, joint_set_unchecked. cbn. split.
    - intros E. injection E. intros. subst. repeat split.
    - intros. destruct_and!. subst. reflexivity.
  Qed.
  Lemma bare_strip n : bare (strip n) = bare n.
  Proof. destruct n as [? ? []]. reflexivity. Qed.
  Lemma strip_bare_pos n n' : bare n' = bare n -> j_position (n_joint n') = j_position (n_joint n) ->
    strip n' = strip n.
  Proof.
    destruct n as [a1 a2 [] a4 a5 a6 a7], n' as [b1 b2 [] b4 b5 b6 b7].
    unfold strip, bare, set_n_joint, joint_set_unchecked. cbn. intros E ->. injection E. intros. subst. reflexivity.
  Qed.

  Lemma unch_refl h : unch h h. Proof. intros a. reflexivity. Qed.
  Lemma unch_trans h1 h2 h3 : unch h1 h2 -> unch h2 h3 -> unch h1 h3.
  Proof. intros H1 H2 a. rewrite H2. apply H1. Qed.
  Lemma frozen_refl h : frozen h h. Proof. intros a. reflexivity. Qed.
  Lemma frozen_trans h1 h2 h3 : frozen h1 h2 -> frozen h2 h3 -> frozen h1 h3.
  Proof. intros H1 H2 a. rewrite H2. apply H1. Qed.
  Lemma offm_refl m h : offm m h h. Proof. intros a _. reflexivity. Qed.
  Lemma offm_trans m h1 h2 h3 : offm m h1 h2 -> offm m h2 h3 -> offm m h1 h3.
  Proof. intros H1 H2 a Ha. rewrite H2 by assumption. apply H1. assumption. Qed.
  Lemma unch_frozen h h' : unch h h' -> frozen h h'.
  Proof.
    intros H a. specialize (H a). destruct (h' !! a), (h !! a); cbn in *; try congruence.
    f_equal. rewrite <- bare_strip, <- (bare_strip n0). congruence.
  Qed.
  Lemma unch_offm m h h' : unch h h' -> offm m h h'.
  Proof. intros H a _. apply H. Qed.
  Lemma unch_heaps h h' : unch h h' <-> heaps same_but_caches h h'.
  Proof.
    unfold unch, heaps. split; intros H a; specialize (H a); destruct (h !! a), (h' !! a); cbn in *; try done.
    - apply strip_eq. congruence.
    - f_equal. apply strip_eq. assumption.
  Qed.
  Lemma frozen_heaps h h' : frozen h h' <-> heaps same_but_position h h'.
  Proof.
    unfold frozen, heaps. split; intros H a; specialize (H a); destruct (h !! a), (h' !! a); cbn in *; try done.
    - apply bare_eq. congruence.
    - f_equal. apply bare_eq. assumption.
  Qed.
  Lemma only_moved_intro m h h' : frozen h h' -> offm m h h' -> only_moved m h h'.
  Proof.
    intros Hf Ho. split; [apply frozen_heaps; assumption|]. intros a n n' Ha Hn Hn'.
    specialize (Ho a Ha). rewrite Hn, Hn' in Ho. apply strip_eq. cbn in Ho. congruence.
  Qed.

  Lemma frozen_at h h' a n : frozen h h' -> h !! a = Some n -> exists n', h' !! a = Some n' /\ bare n' = bare n.
  Proof.
    intros H Hn. specialize (H a). rewrite Hn in H. cbn in H. destruct (h' !! a) as [n'|]; [|discriminate].
    exists n'. split; [reflexivity|]. cbn in H. congruence.
  Qed.
  Lemma unch_at h h' a n : unch h h' -> h !! a = Some n -> exists n', h' !! a = Some n' /\ strip n' = strip n.
  Proof.
    intros H Hn. specialize (H a). rewrite Hn in H. cbn in H. destruct (h' !! a) as [n'|]; [|discriminate].
    exists n'. split; [reflexivity|]. cbn in H. congruence.
  Qed.
  Lemma frozen_sym h h' : frozen h h' -> frozen h' h.
  Proof. intros H a. symmetry. apply H. Qed.
  Lemma unch_sym h h' : unch h h' -> unch h' h.
  Proof. intros H a. symmetry. apply H. Qed.
  Lemma frozen_movable h h' a : frozen h h' -> node_movable h' a = node_movable h a.
  Proof.
    intros H. specialize (H a). unfold node_movable. destruct (h' !! a), (h !! a); cbn in H; try congruence.
    apply Some_inj in H. apply bare_eq in H as (_ & H & _). rewrite H. reflexivity.
  Qed.
  Lemma frozen_chain h h' l c : frozen h h' -> chain_of h l c -> chain_of h' l c.
  Proof.
    intros H (H1 & H2 & H3).
    assert (E : List.filter (node_movable h') l = List.filter (node_movable h) l).
    { clear -H. induction l as [|a l IH]; cbn; [reflexivity|]. rewrite (frozen_movable h h') by assumption.
      rewrite IH. reflexivity. }
    split; [assumption|]. rewrite E. auto.
  Qed.
  Lemma frozen_live h h' l : frozen h h' -> all_live h l -> all_live h' l.
  Proof. intros H Hl a Ha. destruct (Hl a Ha) as [n Hn]. destruct (frozen_at _ _ _ _ H Hn) as (n' & -> & _). eauto. Qed.
  Lemma frozen_plain h h' l : frozen h h' -> plain h l -> plain h' l.
  Proof.
    intros H [Hnd Hp]. split; [assumption|]. intros a Ha. destruct (Hp a Ha) as (n & Hn & Hm).
    destruct (frozen_at _ _ _ _ H Hn) as (n' & Hn' & E). exists n'. split; [assumption|].
    apply bare_eq in E. destruct E as (_ & _ & _ & _ & _ & _ & _ & E1 & E2 & _). unfold no_mimic in *. rewrite E1, E2. assumption.
  Qed.
  Lemma frozen_limits h h' l : frozen h h' -> limits_ok h l -> limits_ok h' l.
  Proof.
    intros H Hl a n' Ha Hn'. destruct (frozen_at _ _ _ _ (frozen_sym _ _ H) Hn') as (n & Hn & E).
    specialize (Hl a n Ha Hn). apply bare_eq in E as (_ & _ & _ & E & _). unfold limits_wf in *. rewrite <- E. assumption.
  Qed.
  Lemma frozen_adm h h' a p : frozen h h' -> admissible_at h a p -> admissible_at h' a p.
  Proof.
    intros H (n & Hn & Ha). destruct (frozen_at _ _ _ _ H Hn) as (n' & Hn' & E). exists n'. split; [assumption|].
    apply bare_eq in E as (_ & E1 & _ & E2 & _). unfold admissible, movable, within_limits in *. rewrite E1, E2. assumption.
  Qed.
  Lemma unch_position h h' a : unch h h' -> position_at h' a = position_at h a.
  Proof.
    intros H. specialize (H a). unfold position_at. destruct (h' !! a), (h !! a); cbn in H; try congruence.
    apply Some_inj in H. apply strip_eq in H as (_ & _ & H & _). rewrite H. reflexivity.
  Qed.
  Lemma strip_local n n' : strip n' = strip n -> local_transform (n_joint n') = local_transform (n_joint n).
  Proof. intros H. apply strip_eq in H as (_ & H1 & H2 & _ & _ & H3 & _). unfold local_transform. rewrite H1, H2, H3. reflexivity. Qed.
  Lemma unch_locals h h' l ts : unch h h' -> Forall2 (local_at h) l ts -> Forall2 (local_at h') l ts.
  Proof.
    intros H. induction 1 as [|a t l ts (n & Hn & ->) Hr IH]; constructor; auto.
    destruct (unch_at _ _ _ _ H Hn) as (n' & Hn' & E). exists n'. split; [assumption|]. symmetry. apply strip_local. assumption.
  Qed.

  Lemma movable_live h l c : chain_of h l c -> all_live h (c_movable c).
  Proof.
    intros (_ & -> & _) a Ha. apply elem_of_list_In, filter_In in Ha as [_ Ha]. unfold node_movable in Ha.
    destruct (h !! a); [eauto|discriminate].
  Qed.
  Lemma movable_type h l c a n : chain_of h l c -> a ∈ c_movable c -> h !! a = Some n -> movable (n_joint n).
  Proof.
    intros (_ & -> & _) Ha Hn. apply elem_of_list_In, filter_In in Ha as [_ Ha]. unfold node_movable in Ha. rewrite Hn in Ha.
    unfold movable. destruct (j_type (n_joint n)); congruence.
  Qed.
  Lemma types_kept_refl h : types_kept h h. Proof. intros a n Hn. eauto. Qed.
  Lemma run_positions t h nx c l : chain_of h l c ->
    exists ps, run t (joint_positions c) (quiet h nx) = Done ps (quiet h nx) /\
      length ps = c_dof c /\ map Some ps = map (position_at h) (c_movable c).
  Proof. intros H. eapply run_joint_positions; [exact H|apply types_kept_refl]. Qed.
  Lemma run_end_transform t h nx c : all_live h (c_nodes c) ->
    exists w ts, run t (end_transform c) (quiet h nx) = Done w (quiet h nx) /\
      Forall2 (local_at h) (c_nodes c) ts /\ w = product iso1 ts.
  Proof.
    intros Hl. destruct (locals_exist h _ Hl) as [ts Hts]. exists (product iso1 ts), ts. split; [|auto].
    unfold end_transform. apply run_end_fold. assumption.
  Qed.

  (** ** programs that leave the state alone whenever they return *)
  Definition inert {A} (p : prog T A) : Prop := forall t s x s', run t p s = Done x s' -> s' = s.
  Lemma inert_ret {A} (x : A) : inert (Ret x).
  Proof. intros t s y s' E. injection E as _ <-. reflexivity. Qed.
  Lemma inert_panic {A} m : inert (Panic (A := A) m).
  Proof. intros t s y s' E. discriminate. Qed.
  Lemma inert_bind {A B} (p : prog T A) (f : A -> prog T B) : inert p -> (forall x, inert (f x)) -> inert (bind p f).
  Proof.
    intros Hp Hf t s y s' E. apply run_bind_inv in E as (x & s1 & E1 & E2). apply Hp in E1 as ->. eapply Hf; eauto.
  Qed.
  Lemma inert_expect {A} (o : option A) m : inert (expect (T := T) o m).
  Proof. destruct o; [apply inert_ret|apply inert_panic]. Qed.
  Lemma inert_usize_sub ovf a b : inert (usize_sub (T := T) ovf a b).
  Proof. unfold usize_sub. repeat case_match; auto using inert_ret, inert_panic. Qed.
  Lemma inert_remove_rows ovf ops : forall i r m, inert (remove_rows (T := T) ovf i r ops m).
  Proof.
    induction ops as [|[] ops IH]; intros i r m; cbn [remove_rows]; [apply inert_ret|apply IH|].
    apply inert_bind; [apply inert_usize_sub|]. intros k. case_match; [apply IH|apply inert_panic].
  Qed.
  Lemma inert_remove_columns {A} ovf idx : forall i (l : list A), inert (remove_columns (T := T) ovf i idx l).
  Proof.
    induction idx as [|j idx IH]; intros i l; cbn [remove_columns]; [apply inert_ret|].
    apply inert_bind; [apply inert_usize_sub|]. intros k. apply inert_bind; [|intros; apply IH].
    unfold remove_nth. case_match; auto using inert_ret, inert_panic.
  Qed.
  Lemma inert_insert_rows idx : forall l, inert (insert_rows (T := T) idx l).
  Proof.
    induction idx as [|j idx IH]; intros l; cbn [insert_rows]; [apply inert_ret|].
    apply inert_bind; [|intros; apply IH]. unfold insert_nth. case_match; auto using inert_ret, inert_panic.
  Qed.
  Lemma inert_new_positions ovf la sv orig err jac av req idx :
    inert (new_positions ovf la sv orig err jac av req idx).
  Proof.
    unfold new_positions.
    repeat first [apply inert_ret | apply inert_panic
      | apply inert_bind; [first [apply inert_expect|apply inert_remove_columns|apply inert_insert_rows]|intros ?]
      | case_match].
  Qed.

  Lemma iter_joints_done {A} t h nx c (f : joint T -> prog T A) l s :
    (forall j, inert (f j)) ->
    run t (iter_joints c f) (quiet h nx) = Done l s ->
    s = quiet h nx /\
    Forall2 (fun a x => exists n s1, h !! a = Some n /\ run t (f (n_joint n)) s1 = Done x s1) (c_movable c) l.
  Proof.
    intros Hf. unfold iter_joints. generalize (c_movable c) as m. revert l s.
    intros l s m. revert l s. induction m as [|a m IH]; intros l s E.
    - injection E as <- <-. split; [reflexivity|constructor].
    - rewrite run_mapM_cons in E.
      destruct (run t (lock a ;;; n <- get a ;; x <- f (n_joint n) ;; unlock a ;;; Ret x) (quiet h nx)) as [y s1| | | |] eqn:E1;
        cbn [obind] in E; try discriminate.
      destruct (run t (mapM _ m) s1) as [ys s2| | | |] eqn:E2; cbn [obind] in E; try discriminate.
      injection E as <- <-.
      destruct (h !! a) as [n|] eqn:Hn.
      2:{ exfalso. unfold quiet in E1. cbn [lock bind run heap] in E1. rewrite Hn in E1. discriminate. }
      unfold quiet in E1. rewrite (run_lock_bind t a _ h nx ∅ n Hn (lookup_empty _)) in E1.
      rewrite (run_get_bind t a _ h nx _ n Hn (lookup_insert _ _ _)) in E1.
      apply run_bind_inv in E1 as (x & s3 & E3 & E1). pose proof (Hf _ _ _ _ _ E3) as ->.
      rewrite run_unlock_bind in E1 by apply lookup_insert. rewrite delete_insert in E1 by apply lookup_empty.
      injection E1 as <- <-. destruct (IH _ _ E2) as [-> Hm]. split; [reflexivity|]. constructor; [|assumption]. eauto.
  Qed.

  (** ** the programs the solver runs *)
  Lemma update_transform_unch t h nx a w s : is_Some (h !! a) ->
    run t (update_transform a) (quiet h nx) = Done w s -> exists h', s = quiet h' nx /\ unch h h'.
  Proof.
    intros [n Hn]. unfold update_transform. destruct (run_parent_wt_some t h nx a) as [[ptf|] H1]; [eauto| |].
    - rewrite run_bind, H1. cbn [obind expect]. rewrite run_bind. cbn [run obind]. unfold quiet.
      erewrite run_bind_done by (eapply run_read; eauto using lookup_empty).
      erewrite run_bind_done by (eapply run_modify; eauto using lookup_empty). cbn [run].
      intros E. apply (f_equal (fun o => match o with Done _ s => Some s | _ => None end)) in E. cbv beta iota in E.
      injection E as <-. eexists. split; [reflexivity|]. intros b. destruct (decide (b = a)) as [->|Hb].
      + rewrite lookup_insert, Hn. cbn. f_equal.
      + rewrite lookup_insert_ne by auto. reflexivity.
    - rewrite run_bind, H1. cbn. discriminate.
  Qed.
  Lemma update_transforms_unch t h nx c ws s : all_live h (c_nodes c) ->
    run t (update_transforms c) (quiet h nx) = Done ws s -> exists h', s = quiet h' nx /\ unch h h'.
  Proof.
    intros Hl E. unfold update_transforms in E.
    destruct (mapM_done t update_transform (fun _ => True) unch nx unch_refl unch_trans (c_nodes c) h ws s) as (_ & H).
    - intros x h' b s' Hx Hp Er. split; [exact I|]. eapply update_transform_unch; [|exact Er].
      eapply frozen_live; [apply unch_frozen; exact Hp|exact Hl|exact Hx].
    - exact E.
    - exact H.
  Qed.
  Lemma inert_column p_n ty j : inert
    (t_i <- expect (T := T) (j_wt_cache j) "called `Option::unwrap()` on a `None` value" ;; jacobian_column p_n t_i ty).
  Proof.
    apply inert_bind; [apply inert_expect|]. intros x. unfold jacobian_column. case_match; auto using inert_ret, inert_panic.
  Qed.
  Lemma jacobian_column_length t p w ty x s s' :
    run t (jacobian_column p w ty) s = Done x s' -> length x = 6.
  Proof. unfold jacobian_column. case_match; intros E; try discriminate; injection E as <- _; reflexivity. Qed.
  Lemma jacobian_done t h nx arm J s : all_live h (c_nodes arm) ->
    run t (jacobian arm) (quiet h nx) = Done J s ->
    exists h', s = quiet h' nx /\ unch h h' /\ m_rows J = 6 /\ length (m_cols J) = c_dof arm /\
      Forall (fun c => length c = 6) (m_cols J).
  Proof.
    intros Hl E. unfold jacobian in E. destruct (run_end_transform t h nx arm Hl) as (w & ts & Hw & _).
    rewrite run_bind, Hw in E. cbn [obind] in E. apply run_bind_inv in E as (ws & s1 & E1 & E).
    apply update_transforms_unch in E1 as (h1 & -> & H1); [|assumption].
    apply run_bind_inv in E as (cols & s2 & E2 & E).
    pose proof E2 as E2'. apply iter_joints_done in E2 as [-> Hcols]; [|intros j; apply inert_column].
    destruct (decide _) as [Hd|Hd]; [|discriminate]. injection E as <- <-. exists h1.
    split; [reflexivity|]. split; [assumption|]. split; [reflexivity|]. cbn [m_cols]. unfold dof in *. split.
    { apply take_length_le. assumption. }
    apply Forall_take. clear -Hcols. induction Hcols as [|a x m l (n & s1 & _ & Hx) Hm IH]; constructor; [|assumption].
    apply run_bind_inv in Hx as (t_i & s2 & _ & Hx). eapply jacobian_column_length; eauto.
  Qed.

  Definition clampF (p : T) (n : node T) : node T := set_n_joint n (joint_set_clamped (n_joint n) p).
  Lemma bare_clampF p n : bare (clampF p n) = bare n.
  Proof.
    destruct n as [? ? [? ty] ]. unfold clampF, joint_set_clamped, is_movable. destruct ty; reflexivity.
  Qed.
  Lemma upd_clamp_frozen l : forall h, frozen h (upd_all clampF h l).
  Proof.
    induction l as [|[a p] l IH]; intros h; [apply frozen_refl|]. rewrite upd_all_cons.
    eapply frozen_trans; [|apply IH]. intros b. destruct (decide (b = a)) as [->|Hb].
    - rewrite lookup_alter. destruct (h !! a) as [n|]; [|reflexivity]. cbn. rewrite bare_clampF. reflexivity.
    - rewrite lookup_alter_ne by auto. reflexivity.
  Qed.
  Lemma zip_fst_sub {A B} (l : list A) (ps : list B) a : a ∈ map fst (zip l ps) -> a ∈ l.
  Proof. rewrite zip_fst. intros H. apply elem_of_take in H as (i & H & _). eapply elem_of_list_lookup_2; eauto. Qed.
  Lemma run_clamped t h nx c ps : all_live h (c_movable c) ->
    run t (set_joint_positions_clamped c ps) (quiet h nx) = Done tt (quiet (upd_all clampF h (zip (c_movable c) ps)) nx).
  Proof.
    intros Hl. unfold set_joint_positions_clamped. apply run_clamped_list. intros a Ha. apply Hl. eapply zip_fst_sub; eauto.
  Qed.
  Lemma upd_clamp_offm h m ps : offm m h (upd_all clampF h (zip m ps)).
  Proof.
    intros a Ha. rewrite upd_all_other; [reflexivity|]. intros H. apply Ha. eapply zip_fst_sub; eauto.
  Qed.

  (** setting every joint to its clamped position again changes nothing *)
  Definition settled h (a : nat) : Prop :=
    forall n, h !! a = Some n ->
      match j_limits (n_joint n) with Some r => clamp r (j_position (n_joint n)) = j_position (n_joint n) | None => True end.
  Lemma clamp_again {OL : OrdLaws T} (r : range T) v : sle (rmin r) (rmax r) = true -> clamp r (clamp r v) = clamp r v.
  Proof.
    intros Hr. destruct (sle v v) eqn:Hv.
    - apply clamp_idem; assumption.
    - destruct (clamp_nan r v) as [E _]; [unfold snum; congruence|]. rewrite E. assumption.
  Qed.
  Lemma clampF_settled {OL : OrdLaws T} h a p n :
    h !! a = Some (clampF p n) -> movable (n_joint n) -> limits_wf (n_joint n) -> settled h a.
  Proof.
    intros Hh Hm Hw n' Hn'. assert (n' = clampF p n) as -> by congruence. clear Hh Hn'.
    destruct n as [? ? [nm ty pos vel lim o c1 c2] ? ? ? ?]. unfold clampF, joint_set_clamped, is_movable, movable, limits_wf in *. cbn in *.
    destruct ty; [congruence| |]; cbn; (destruct lim as [r|]; [|exact I]); apply clamp_again; apply Hw; reflexivity.
  Qed.
  Lemma upd_clamp_settled {OL : OrdLaws T} l : forall h a,
    limits_ok h (map fst l) -> (forall b n, b ∈ map fst l -> h !! b = Some n -> movable (n_joint n)) ->
    a ∈ map fst l -> settled (upd_all clampF h l) a.
  Proof.
    induction l as [|[b p] l IH]; intros h a Hlim Hmov Ha; [set_solver|]. rewrite upd_all_cons. cbn in Ha.
    assert (Hf : frozen h (alter (clampF p) b h)) by exact (upd_clamp_frozen [(b, p)] h).
    destruct (decide (a ∈ map fst l)) as [Hal|Hal].
    - apply IH; [| |assumption].
      + intros x n Hx Hn. eapply frozen_limits; [exact Hf|exact Hlim| |exact Hn]. cbn. set_solver.
      + intros x n' Hx Hn'. destruct (frozen_at _ _ _ _ (frozen_sym _ _ Hf) Hn') as (n & Hn & E).
        apply bare_eq in E as (_ & E & _). unfold movable. rewrite <- E. refine (Hmov _ n _ Hn). cbn. set_solver.
    - assert (a = b) as -> by set_solver. intros n Hn. rewrite upd_all_other in Hn by assumption.
      rewrite lookup_alter in Hn. destruct (h !! b) as [n0|] eqn:H0; [|discriminate]. injection Hn as <-.
      eapply (clampF_settled (<[b := clampF p n0]> h) b p n0); [apply lookup_insert| | |apply lookup_insert].
      + eapply Hmov; [|eassumption]; cbn; set_solver.
      + eapply Hlim; [|eassumption]; cbn; set_solver.
  Qed.
  Lemma clampF_same n : movable (n_joint n) ->
    match j_limits (n_joint n) with Some r => clamp r (j_position (n_joint n)) = j_position (n_joint n) | None => True end ->
    strip (clampF (j_position (n_joint n)) n) = strip n.
  Proof.
    destruct n as [? ? [nm ty pos vel lim o c1 c2] ? ? ? ?]. unfold movable. cbn. intros Hm Hs.
    unfold clampF, joint_set_clamped, is_movable, strip. cbn. destruct ty; [congruence| |]; cbn; (destruct lim; [rewrite Hs|]; reflexivity).
  Qed.
  Lemma unch_settled h h' a : unch h h' -> settled h a -> settled h' a.
  Proof.
    intros H Hs n' Hn'. destruct (unch_at _ _ _ _ (unch_sym _ _ H) Hn') as (n & Hn & E). specialize (Hs n Hn).
    apply strip_eq in E as (_ & _ & E1 & _ & E2 & _). rewrite <- E1, <- E2. assumption.
  Qed.
  (** re-applying the current positions *)
  Lemma reclamp l : forall h,
    (forall a, a ∈ map fst l -> settled h a) ->
    (forall b n, b ∈ map fst l -> h !! b = Some n -> movable (n_joint n)) ->
    (forall a p, (a, p) ∈ l -> position_at h a = Some p) -> unch h (upd_all clampF h l).
  Proof.
    induction l as [|[a p] l IH]; intros h Hs Hmov Hp; [apply unch_refl|]. rewrite upd_all_cons.
    assert (H1 : unch h (alter (clampF p) a h)).
    { intros b. destruct (decide (b = a)) as [->|Hb].
      - rewrite lookup_alter. assert (Hpa := Hp a p ltac:(left)). unfold position_at in Hpa.
        destruct (h !! a) as [n|] eqn:Hn; [|discriminate]. injection Hpa as <-. cbn. f_equal.
        apply clampF_same; [eapply Hmov; [|eassumption]; cbn; set_solver|apply (Hs a); [cbn; set_solver|assumption]].
      - rewrite lookup_alter_ne by auto. reflexivity. }
    eapply unch_trans; [exact H1|]. apply IH.
    - intros b Hb. eapply unch_settled; [exact H1|]. apply Hs. cbn. set_solver.
    - intros b n' Hb Hn'. destruct (unch_at _ _ _ _ (unch_sym _ _ H1) Hn') as (n & Hn & E).
      apply strip_eq in E as (_ & E & _). unfold movable. rewrite <- E. refine (Hmov _ n _ Hn). cbn. set_solver.
    - intros b q Hb. rewrite (unch_position h) by assumption. apply Hp. right. assumption.
  Qed.

  (** ** which joints an iteration writes *)
  Lemma remove_columns_length {A} t ovf idx : forall i (l l' : list A) s s',
    run t (remove_columns (T := T) ovf i idx l) s = Done l' s' -> length l' + length idx = length l.
  Proof.
    induction idx as [|j idx IH]; intros i l l' s s' E; cbn [remove_columns] in E.
    - injection E as <- _. cbn. lia.
    - apply run_bind_inv in E as (k & s1 & _ & E). apply run_bind_inv in E as (l1 & s2 & E1 & E).
      apply IH in E. unfold remove_nth in E1. destruct (decide _) as [Hk|]; [|discriminate]. injection E1 as <- _.
      rewrite app_length, take_length, drop_length in E. cbn [length]. lia.
  Qed.
  Lemma insert_rows_length t idx : forall (l l' : list T) s s',
    run t (insert_rows idx l) s = Done l' s' -> length l' = length l + length idx.
  Proof.
    induction idx as [|j idx IH]; intros l l' s s' E; cbn [insert_rows] in E.
    - injection E as <- _. cbn. lia.
    - apply run_bind_inv in E as (l1 & s2 & E1 & E). apply IH in E. unfold insert_nth in E1.
      destruct (decide _) as [Hk|]; [|discriminate]. injection E1 as <- _.
      rewrite app_length, take_length in E. cbn [length] in *. rewrite drop_length in E. lia.
  Qed.
  Lemma new_positions_full t ovf la sv orig err J av req idx ps s s' :
    sized la -> length orig = length (m_cols J) + length idx -> av = N.of_nat (length (m_cols J)) ->
    idx = [] \/ req < length (m_cols J) ->
    run t (new_positions ovf la sv orig err J av req idx) s = Done (Ok ps) s' -> length ps = length orig.
  Proof.
    intros (Hlu & Hsvd) Hlen -> Hidx E. unfold new_positions in E.
    destruct (decide _) as [Hd|Hd].
    - destruct (nullspace_function sv) as [f|].
      + apply run_bind_inv in E as (jinv & s1 & E1 & E). apply run_bind_inv in E as (sub & s2 & E2 & E).
        apply run_bind_inv in E as (sub' & s3 & E3 & E). destruct (decide _) as [(Hr & _ & Hs)|]; [|discriminate].
        apply run_bind_inv in E as (dq & s4 & E4 & E). injection E as <- _.
        apply insert_rows_length in E4. unfold add_positions_with_multiplier. rewrite zip_with_length, E4.
        unfold vec_add, mat_vec. rewrite zip_with_length, !map_length, !seq_length. cbn [mat_sub m_rows ident]. lia.
      + apply run_bind_inv in E as (dq & s1 & E1 & E). apply run_bind_inv in E as (dq' & s2 & E2 & E). injection E as <- _.
        apply insert_rows_length in E2. unfold add_positions_with_multiplier. rewrite zip_with_length, E2.
        destruct (svd_solve la J err) as [x|] eqn:Ex; [|discriminate]. injection E1 as <- _. apply Hsvd in Ex. lia.
    - destruct (lu_solve la J err) as [x|] eqn:Ex; [|discriminate]. injection E as <- _. apply Hlu in Ex.
      unfold add_positions_with_multiplier. rewrite zip_with_length. destruct Hidx as [->|Hidx]; cbn in *; lia.
  Qed.

  Lemma remove_rows_cols t ovf ops : forall i r m m' s s',
    run t (remove_rows (T := T) ovf i r ops m) s = Done m' s' -> length (m_cols m') = length (m_cols m).
  Proof.
    induction ops as [|[] ops IH]; intros i r m m' s s' E; cbn [remove_rows] in E.
    - injection E as <- _. reflexivity.
    - eapply IH; eauto.
    - apply run_bind_inv in E as (k & s1 & _ & E). destruct (decide _); [|discriminate].
      apply IH in E. rewrite E. cbn. apply map_length.
  Qed.

  (** ** one iteration *)
  Lemma one_loop_done t ovf la sv h nx arm target ops idx r s :
    chain_of h (c_nodes arm) arm -> all_live h (c_nodes arm) ->
    run t (solve_one_loop_with_constraints ovf la sv arm target ops idx) (quiet h nx) = Done r s ->
    exists h', s = quiet h' nx /\
    match r with
    | Err _ => unch h h'
    | Ok diff => exists h1 orig err J av ps w,
        unch h h1 /\ h' = upd_all clampF h1 (zip (c_movable arm) ps) /\
        map Some orig = map (position_at h) (c_movable arm) /\
        length (m_cols J) + length idx = c_dof arm /\
        run t (usize_sub ovf (dof arm) (length idx)) (quiet h nx) = Done av (quiet h nx) /\
        run t (new_positions ovf la sv orig err J av (count_true ops) idx) (quiet h1 nx) = Done (Ok ps) (quiet h1 nx) /\
        run t (end_transform arm) (quiet h' nx) = Done w (quiet h' nx) /\
        diff = calc_pose_diff_with_constraints target w ops
    end.
  Proof.
    intros Hc Hl E. unfold solve_one_loop_with_constraints in E.
    destruct (run_positions t h nx arm _ Hc) as (orig & Horig & _ & Hpos). rewrite run_bind, Horig in E. cbn [obind] in E.
    apply run_bind_inv in E as (av & s1 & Eav & E). pose proof (inert_usize_sub _ _ _ _ _ _ _ Eav) as ->.
    destruct (run_end_transform t h nx arm Hl) as (t_n & ts & Ht & _). rewrite run_bind, Ht in E. cbn [obind] in E.
    apply run_bind_inv in E as (J & s1 & EJ & E). apply jacobian_done in EJ as (h1 & -> & H1 & _ & HJ & _); [|assumption].
    apply run_bind_inv in E as (J2 & s1 & EJ & E). pose proof (remove_rows_cols _ _ _ _ _ _ _ _ _ EJ) as HJ2. pose proof (inert_remove_rows _ _ _ _ _ _ _ _ _ EJ) as ->.
    apply run_bind_inv in E as (cols & s1 & Ecols & E). pose proof (remove_columns_length _ _ _ _ _ _ _ _ Ecols) as HJ3. pose proof (inert_remove_columns _ _ _ _ _ _ _ _ Ecols) as ->.
    apply run_bind_inv in E as (r' & s1 & Er & E). pose proof (inert_new_positions _ _ _ _ _ _ _ _ _ _ _ _ _ Er) as ->.
    destruct r' as [ps|e].
    - assert (Hl1 : all_live h1 (c_movable arm)).
      { eapply frozen_live; [apply unch_frozen; exact H1|]. eapply movable_live; eauto. }
      rewrite run_bind, (run_clamped t h1 nx arm ps Hl1) in E. cbn [obind] in E.
      assert (Hl2 : all_live (upd_all clampF h1 (zip (c_movable arm) ps)) (c_nodes arm)).
      { eapply frozen_live; [apply upd_clamp_frozen|]. eapply frozen_live; [apply unch_frozen; exact H1|assumption]. }
      destruct (run_end_transform t _ nx arm Hl2) as (w & ts2 & Hw & _). rewrite run_bind, Hw in E. cbn [obind run] in E.
      apply (f_equal (fun o => match o with Done x s => Some (x, s) | _ => None end)) in E. cbv beta iota in E.
      inversion E; subst. eexists. split; [reflexivity|].
      exists h1, orig, (calc_pose_diff_with_constraints target t_n ops), (Mat (m_rows J2) cols), av, ps, w.
      split; [assumption|]. split; [reflexivity|]. split; [assumption|].
      split; [cbn [m_cols]; lia|]. split; [assumption|]. split; [exact Er|]. split; [exact Hw|reflexivity].
    - inversion E; subst. eauto.
  Qed.
  Lemma one_loop_ok t ovf la sv h nx arm target ops idx diff s :
    chain_of h (c_nodes arm) arm -> all_live h (c_nodes arm) ->
    run t (solve_one_loop_with_constraints ovf la sv arm target ops idx) (quiet h nx) = Done (Ok diff) s ->
    exists h' w, s = quiet h' nx /\ frozen h h' /\ offm (c_movable arm) h h' /\
      run t (end_transform arm) (quiet h' nx) = Done w (quiet h' nx) /\
      diff = calc_pose_diff_with_constraints target w ops.
  Proof.
    intros Hc Hl E. destruct (one_loop_done _ _ _ _ _ _ _ _ _ _ _ _ Hc Hl E) as
      (h' & -> & h1 & orig & err & J & av & ps & w & H1 & -> & _ & _ & _ & _ & Hw & ->).
    eexists _, w. split; [reflexivity|]. split; [|split; [|auto]].
    - eapply frozen_trans; [apply unch_frozen; exact H1|apply upd_clamp_frozen].
    - eapply offm_trans; [apply unch_offm; exact H1|apply upd_clamp_offm].
  Qed.

  Lemma end_transform_unch t h h' nx nx' arm w : all_live h (c_nodes arm) -> unch h h' ->
    run t (end_transform arm) (quiet h nx) = Done w (quiet h nx) ->
    run t (end_transform arm) (quiet h' nx') = Done w (quiet h' nx').
  Proof.
    intros Hl Hu Hw. destruct (run_end_transform t h nx arm Hl) as (w' & ts & Hw' & Hts & ->).
    assert (w = product iso1 ts) as -> by (rewrite Hw' in Hw; congruence).
    apply run_end_fold. eapply unch_locals; eauto.
  Qed.
  Lemma positions_match {A} (g : nat -> option A) m (l : list A) :
    map Some l = map g m -> forall a x, (a, x) ∈ zip m l -> g a = Some x.
  Proof.
    revert l. induction m as [|b m IH]; intros [|y l] E a x Hin; try discriminate; [set_solver|].
    cbn in *. injection E as Ey E. apply elem_of_cons in Hin as [Eq|Hin]; [congruence|]. eapply IH; eauto.
  Qed.
  Lemma zip_fst_full {A B} (m : list A) (l : list B) : length l = length m -> map fst (zip m l) = m.
  Proof. intros E. rewrite zip_fst, E. apply firstn_all. Qed.
  Lemma positions_length {A} (g : nat -> option A) m (l : list A) : map Some l = map g m -> length l = length m.
  Proof. intros E. apply (f_equal length) in E. rewrite !map_length in E. assumption. Qed.

  (** ** the loop *)
  Definition writes_all (la : linalg T) (arm : chain) (req : nat) (idx : list nat) : Prop :=
    sized la /\ (idx = [] \/ req + length idx < c_dof arm).
  Lemma rest_settled h l : rest h l <-> forall a, a ∈ l -> settled h a.
  Proof.
    split.
    - intros H a Ha n Hn. destruct (j_limits (n_joint n)) as [r|] eqn:E; [|exact I]. eapply H; eauto.
    - intros H a n r Ha Hn Hr. specialize (H a Ha n Hn). rewrite Hr in H. assumption.
  Qed.
  Lemma settled_upd {OL : OrdLaws T} l : forall h a,
    limits_ok h (map fst l) -> (forall b n, b ∈ map fst l -> h !! b = Some n -> movable (n_joint n)) ->
    settled h a -> settled (upd_all clampF h l) a.
  Proof.
    intros h a Hlim Hmov Hs. destruct (decide (a ∈ map fst l)) as [Ha|Ha].
    - apply upd_clamp_settled; assumption.
    - intros n Hn. rewrite upd_all_other in Hn by assumption. apply Hs. assumption.
  Qed.
  Lemma one_loop_rest {OL : OrdLaws T} t ovf la sv h nx arm target ops idx diff s :
    chain_of h (c_nodes arm) arm -> all_live h (c_nodes arm) -> limits_ok h (c_movable arm) ->
    rest h (c_movable arm) \/ writes_all la arm (count_true ops) idx ->
    run t (solve_one_loop_with_constraints ovf la sv arm target ops idx) (quiet h nx) = Done (Ok diff) s ->
    exists h', s = quiet h' nx /\ rest h' (c_movable arm).
  Proof.
    intros Hc Hl Hlim Hrw E. destruct (one_loop_done _ _ _ _ _ _ _ _ _ _ _ _ Hc Hl E) as
      (h' & -> & h1 & orig & err & J & av & ps & w & H1 & -> & Hpos & HJ & Hav & Hnew & Hw & ->).
    eexists. split; [reflexivity|]. apply rest_settled. intros a Ha.
    assert (Hc1 : chain_of h1 (c_nodes arm) arm) by (eapply frozen_chain; [apply unch_frozen; exact H1|exact Hc]).
    assert (Hlim1 : limits_ok h1 (c_movable arm)) by (eapply frozen_limits; [apply unch_frozen; exact H1|exact Hlim]).
    assert (Hlim2 : limits_ok h1 (map fst (zip (c_movable arm) ps))).
    { intros b n Hb Hn. eapply Hlim1; [eapply zip_fst_sub; exact Hb|exact Hn]. }
    assert (Hmov2 : forall b n, b ∈ map fst (zip (c_movable arm) ps) -> h1 !! b = Some n -> movable (n_joint n)).
    { intros b n Hb Hn. eapply movable_type; [exact Hc1|eapply zip_fst_sub; exact Hb|exact Hn]. }
    destruct Hrw as [Hr|[Hsz Hw2]].
    - apply settled_upd; [assumption|assumption|]. eapply unch_settled; [exact H1|]. apply (proj1 (rest_settled _ _) Hr). assumption.
    - apply upd_clamp_settled; [assumption|assumption|].
      assert (Hd : c_dof arm = length (c_movable arm)) by (destruct Hc as (_ & -> & ->); reflexivity).
      pose proof (positions_length _ _ _ Hpos) as Hlo.
      assert (av = N.of_nat (length (m_cols J))) as ->.
      { unfold usize_sub, dof in Hav. rewrite decide_True in Hav by lia. injection Hav as <-. f_equal. lia. }
      eapply new_positions_full in Hnew; [|exact Hsz|lia|reflexivity|destruct Hw2 as [?|?]; [left; assumption|right; lia]].
      rewrite zip_fst_full by lia. assumption.
  Qed.
  Lemma chain_mov_step h h' arm : frozen h h' -> chain_of h (c_nodes arm) arm -> all_live h (c_nodes arm) ->
    chain_of h' (c_nodes arm) arm /\ all_live h' (c_nodes arm).
  Proof. intros Hf Hc Hl. split; [eapply frozen_chain|eapply frozen_live]; eauto. Qed.

  Lemma ik_loop_ok {OL : OrdLaws T} t ovf la sv nx arm target ops idx orig n : forall h last s,
    chain_of h (c_nodes arm) arm -> all_live h (c_nodes arm) -> limits_ok h (c_movable arm) ->
    rest h (c_movable arm) \/ writes_all la arm (count_true ops) idx ->
    run t (ik_loop ovf la sv arm target ops idx orig n last) (quiet h nx) = Done (Ok tt) s ->
    exists h' w, s = quiet h' nx /\ frozen h h' /\ offm (c_movable arm) h h' /\ rest h' (c_movable arm) /\
      run t (end_transform arm) (quiet h' nx) = Done w (quiet h' nx) /\
      reached sv (target_diff_to_len_rot_diff (calc_pose_diff_with_constraints target w ops) ops) = true.
  Proof.
    induction n as [|n IH]; intros h last s Hc Hl Hlim Hrw E; cbn [ik_loop] in E.
    - apply run_bind_inv in E as ([?|e] & s1 & _ & E).
      + apply run_bind_inv in E as (lr & s2 & _ & E). discriminate.
      + discriminate.
    - apply run_bind_inv in E as ([diff|e] & s1 & E1 & E); [|discriminate].
      pose proof E1 as E1'. apply one_loop_ok in E1' as (h' & w & -> & Hf & Ho & Hw & ->); [|assumption|assumption].
      apply one_loop_rest in E1 as (h'' & Eq & Hr); [|assumption|assumption|assumption|assumption].
      apply (f_equal heap) in Eq. cbn in Eq. subst h''.
      destruct (chain_mov_step h h' arm Hf Hc Hl) as [Hc' Hl'].
      destruct (reached _ _) eqn:Hre.
      + destruct (run_positions t h' nx arm _ Hc') as (ps & Hps & Hlen & Hpos).
        rewrite run_bind, Hps in E. cbn [obind] in E. rewrite run_bind, run_clamped in E by (eapply movable_live; exact Hc').
        cbn [obind run] in E. injection E as <-.
        assert (Hu : unch h' (upd_all clampF h' (zip (c_movable arm) ps))).
        { apply reclamp.
          - intros a Ha. apply (proj1 (rest_settled _ _) Hr). eapply zip_fst_sub; exact Ha.
          - intros b m Hb Hm. eapply movable_type; [exact Hc'|eapply zip_fst_sub; exact Hb|exact Hm].
          - apply positions_match. assumption. }
        eexists _, w. split; [reflexivity|]. split; [|split; [|split; [|split]]].
        * eapply frozen_trans; [exact Hf|apply unch_frozen; exact Hu].
        * eapply offm_trans; [exact Ho|apply unch_offm; exact Hu].
        * apply rest_settled. intros a Ha. eapply unch_settled; [exact Hu|]. apply (proj1 (rest_settled _ _) Hr). assumption.
        * eapply end_transform_unch; [exact Hl'|exact Hu|exact Hw].
        * exact Hre.
      + destruct (IH h' _ s Hc' Hl' (frozen_limits _ _ _ Hf Hlim) (or_introl Hr) E) as (h2 & w2 & -> & Hf2 & Ho2 & Hr2 & Hw2 & Hre2).
        exists h2, w2. split; [reflexivity|]. split; [eapply frozen_trans; eauto|]. split; [eapply offm_trans; eauto|]. auto.
  Qed.

  Lemma masked_norms c target w :
    target_diff_to_len_rot_diff (calc_pose_diff_with_constraints target w (define_operational_space c))
      (define_operational_space c) = (position_error c target w, rotation_error c target w).
  Proof.
    destruct c as [[] [] [] [] [] [] names]; reflexivity.
  Qed.
  Lemma reached_on_target sv c target w :
    reached sv (target_diff_to_len_rot_diff (calc_pose_diff_with_constraints target w (define_operational_space c))
      (define_operational_space c)) = true <-> on_target sv c target w.
  Proof. rewrite masked_norms. unfold reached, on_target. cbn [fst snd]. rewrite andb_true_iff. reflexivity. Qed.

  Lemma sort_length l : length (sort_unstable l) = length l.
  Proof.
    induction l as [|x l IH]; [reflexivity|].
    change (length (insert_sorted x (sort_unstable l)) = S (length l)). rewrite <- IH. generalize (sort_unstable l) as k.
    induction k as [|y k IHk]; [reflexivity|]. cbn. case_decide; cbn; [reflexivity|]. rewrite IHk. reflexivity.
  Qed.

  (** C31 *)
  Lemma solve_ok_lemma {OL : OrdLaws T} t ovf la sv h nx arm target c s :
    chain_of h (c_nodes arm) arm -> all_live h (c_nodes arm) -> limits_ok h (c_movable arm) ->
    rest h (c_movable arm) \/
    (sized la /\ (ignored_joint_names c = [] \/
       count_true (define_operational_space c) + length (ignored_joint_names c) < c_dof arm)) ->
    run t (solve_with_constraints ovf la sv arm target c) (quiet h nx) = Done (Ok tt) s ->
    exists h' w, s = quiet h' nx /\ only_moved (c_movable arm) h h' /\ rest h' (c_movable arm) /\
      run t (end_transform arm) (quiet h' nx) = Done w (quiet h' nx) /\ on_target sv c target w.
  Proof.
    intros Hc Hl Hlim Hrw E. unfold solve_with_constraints in E.
    destruct (run_positions t h nx arm _ Hc) as (orig & Horig & _ & Hpos). rewrite run_bind, Horig in E. cbn [obind] in E.
    apply run_bind_inv in E as (re & s1 & E1 & E).
    assert (re = Ok tt /\ s1 = s) as [-> ->].
    { destruct re as [[]|e]; cbn [is_err is_ok negb] in E.
      - injection E as <-. auto.
      - apply run_bind_inv in E as ([?|e'] & s2 & _ & E); discriminate. }
    clear E. unfold solve_with_constraints_internal in E1. rewrite run_bind, Horig in E1. cbn [obind] in E1.
    apply run_bind_inv in E1 as (av & s1 & Eav & E1). pose proof (inert_usize_sub _ _ _ _ _ _ _ Eav) as ->.
    destruct (decide _); [discriminate|].
    destruct (run_ignored_indices t h nx arm (ignored_joint_names c)) as (ri & Hri & Hidx); [eapply movable_live; eauto|].
    rewrite run_bind, Hri in E1. cbn [obind] in E1. destruct ri as [idx|]; [|discriminate].
    apply Forall2_length in Hidx.
    apply ik_loop_ok in E1 as (h' & w & -> & Hf & Ho & Hr & Hw & Hre); [|assumption|assumption|assumption|].
    - exists h', w. split; [reflexivity|]. split; [apply only_moved_intro; assumption|]. split; [assumption|].
      split; [assumption|]. apply reached_on_target. assumption.
    - destruct Hrw as [Hr|[Hsz Hn]]; [left; assumption|right]. split; [assumption|]. rewrite sort_length.
      destruct Hn as [Hn|Hn]; [left|right; lia]. rewrite Hn in Hidx. destruct idx; [reflexivity|discriminate].
  Qed.

  (** ** failure *)
  Lemma moved_frozen h h' m : (forall b, b ∉ m -> h' !! b = h !! b) ->
    (forall a, a ∈ m -> exists p, moved_at h h' a p) -> frozen h h' /\ offm m h h'.
  Proof.
    intros Ho Hm. split.
    - intros a. destruct (decide (a ∈ m)) as [Ha|Ha]; [|rewrite Ho by assumption; reflexivity].
      destruct (Hm a Ha) as (p & n & n' & Hn & Hn' & Hmv). rewrite Hn, Hn'. cbn. f_equal.
      apply bare_eq. destruct Hmv as (H1 & H2). unfold moved_to in H1. unfold same_but_position. destruct_and!. repeat split; assumption.
    - intros a Ha. rewrite Ho by assumption. reflexivity.
  Qed.
  Lemma restore t h nx arm orig :
    chain_of h (c_nodes arm) arm -> plain h (c_movable arm) -> length orig = c_dof arm ->
    (forall i a p, c_movable arm !! i = Some a -> orig !! i = Some p -> admissible_at h a p) ->
    exists h', run t (set_joint_positions arm orig) (quiet h nx) = Done (Ok tt) (quiet h' nx) /\
      frozen h h' /\ offm (c_movable arm) h h' /\
      forall i a p, c_movable arm !! i = Some a -> orig !! i = Some p -> position_at h' a = Some p.
  Proof.
    intros Hc Hp Hlen Ha. destruct (set_positions_roundtrip_lemma t h nx arm orig Hc Hp Hlen Ha) as (h' & Hr & _ & Hm & Ho).
    assert (Hd : c_dof arm = length (c_movable arm)) by (destruct Hc as (_ & -> & ->); reflexivity).
    exists h'. split; [assumption|]. destruct (moved_frozen h h' (c_movable arm) Ho) as [H1 H2].
    - intros a Hin. apply elem_of_list_lookup in Hin as (i & Hi). destruct (lookup_lt_is_Some_2 orig i) as [p Hpi].
      + rewrite Hlen, Hd. eapply lookup_lt_Some; eauto.
      + exists p. eapply Hm; eauto.
    - split; [assumption|]. split; [assumption|]. intros i a p Hi Hpi. destruct (Hm i a p Hi Hpi) as (n & n' & _ & Hn' & Hmv).
      unfold position_at. rewrite Hn'. destruct Hmv as ((-> & _) & _). reflexivity.
  Qed.
  Lemma ik_loop_err t ovf la sv nx arm target ops idx orig n : forall h last e s,
    chain_of h (c_nodes arm) arm -> all_live h (c_nodes arm) -> plain h (c_movable arm) -> length orig = c_dof arm ->
    (forall i a p, c_movable arm !! i = Some a -> orig !! i = Some p -> admissible_at h a p) ->
    run t (ik_loop ovf la sv arm target ops idx orig n last) (quiet h nx) = Done (Err e) s ->
    exists h', s = quiet h' nx /\ frozen h h' /\ offm (c_movable arm) h h'.
  Proof.
    induction n as [|n IH]; intros h last e s Hc Hl Hp Hlen Hadm E; cbn [ik_loop] in E.
    - destruct (restore t h nx arm orig Hc Hp Hlen Hadm) as (h' & Hr & Hf & Ho & _). rewrite run_bind, Hr in E. cbn [obind] in E.
      apply run_bind_inv in E as (lr & s1 & El & E). pose proof (inert_expect _ _ _ _ _ _ El) as ->. injection E as _ <-. eauto.
    - apply run_bind_inv in E as ([diff|e'] & s1 & E1 & E).
      + apply one_loop_ok in E1 as (h' & w & -> & Hf & Ho & Hw & ->); [|assumption|assumption].
        destruct (chain_mov_step h h' arm Hf Hc Hl) as [Hc' Hl'].
        destruct (reached _ _) eqn:Hre.
        * apply run_bind_inv in E as (ps & s1 & _ & E). apply run_bind_inv in E as (u & s2 & _ & E). discriminate.
        * apply IH in E as (h2 & -> & Hf2 & Ho2); [|assumption|assumption|eapply frozen_plain; eauto|assumption|].
          -- exists h2. split; [reflexivity|]. split; [eapply frozen_trans; eauto|eapply offm_trans; eauto].
          -- intros i a p Hi Hpi. eapply frozen_adm; eauto.
      + destruct (one_loop_done _ _ _ _ _ _ _ _ _ _ _ _ Hc Hl E1) as (h' & -> & Hu). injection E as _ <-.
        exists h'. split; [reflexivity|]. split; [apply unch_frozen|apply unch_offm]; assumption.
  Qed.
  Lemma start_admissible h arm orig : chain_of h (c_nodes arm) arm -> inside_limits h (c_movable arm) ->
    map Some orig = map (position_at h) (c_movable arm) ->
    forall i a p, c_movable arm !! i = Some a -> orig !! i = Some p -> admissible_at h a p /\ position_at h a = Some p.
  Proof.
    intros Hc Hin Hpos i a p Hi Hpi.
    assert (Hpa : position_at h a = Some p).
    { eapply positions_match; [exact Hpos|]. eapply zip_lookup; eauto. }
    split; [|assumption]. unfold position_at in Hpa. destruct (h !! a) as [n|] eqn:Hn; [|discriminate]. injection Hpa as <-.
    exists n. split; [assumption|]. apply elem_of_list_lookup_2 in Hi. split; [eapply movable_type; eauto|]. eapply Hin; eauto.
  Qed.
  (** C32 *)
  Lemma solve_err_lemma t ovf la sv h nx arm target c e s :
    chain_of h (c_nodes arm) arm -> all_live h (c_nodes arm) -> plain h (c_movable arm) -> inside_limits h (c_movable arm) ->
    run t (solve_with_constraints ovf la sv arm target c) (quiet h nx) = Done (Err e) s ->
    exists h', s = quiet h' nx /\ heaps same_but_caches h h'.
  Proof.
    intros Hc Hl Hp Hin E. unfold solve_with_constraints in E.
    destruct (run_positions t h nx arm _ Hc) as (orig & Horig & Hlen & Hpos). rewrite run_bind, Horig in E. cbn [obind] in E.
    pose proof (start_admissible h arm orig Hc Hin Hpos) as Hadm.
    assert (Hadm' : forall i a p, c_movable arm !! i = Some a -> orig !! i = Some p -> admissible_at h a p)
      by (intros; eapply Hadm; eauto).
    apply run_bind_inv in E as (re & s1 & E1 & E). destruct re as [[]|e1]; cbn [is_err is_ok negb] in E; [discriminate|].
    assert (exists h1, s1 = quiet h1 nx /\ frozen h h1 /\ offm (c_movable arm) h h1) as (h1 & -> & Hf & Ho).
    { clear E. unfold solve_with_constraints_internal in E1. rewrite run_bind, Horig in E1. cbn [obind] in E1.
      apply run_bind_inv in E1 as (av & s2 & Eav & E1). pose proof (inert_usize_sub _ _ _ _ _ _ _ Eav) as ->.
      destruct (decide _).
      { injection E1 as _ <-. exists h. split; [reflexivity|]. split; [apply frozen_refl|apply offm_refl]. }
      destruct (run_ignored_indices t h nx arm (ignored_joint_names c)) as (ri & Hri & _); [eapply movable_live; eauto|].
      rewrite run_bind, Hri in E1. cbn [obind] in E1. destruct ri as [idx|e2].
      - eapply ik_loop_err in E1; eauto.
      - injection E1 as _ <-. exists h. split; [reflexivity|]. split; [apply frozen_refl|apply offm_refl]. }
    destruct (restore t h1 nx arm orig) as (h2 & Hr & Hf2 & Ho2 & Hp2).
    { eapply frozen_chain; eauto. } { eapply frozen_plain; eauto. } { assumption. }
    { intros i a p Hi Hpi. eapply frozen_adm; eauto. }
    rewrite run_bind, Hr in E. cbn [obind run] in E. injection E as _ <-. exists h2. split; [reflexivity|].
    apply unch_heaps. intros a. destruct (decide (a ∈ c_movable arm)) as [Ha|Ha].
    2:{ rewrite Ho2, Ho by assumption. reflexivity. }
    pose proof (frozen_trans _ _ _ Hf Hf2 a) as Hb. apply elem_of_list_lookup in Ha as (i & Hi).
    assert (Hd : c_dof arm = length (c_movable arm)) by (destruct Hc as (_ & -> & ->); reflexivity).
    destruct (lookup_lt_is_Some_2 orig i) as [p Hpi]; [rewrite Hlen, Hd; eapply lookup_lt_Some; eauto|].
    pose proof (Hp2 i a p Hi Hpi) as Hpa. pose proof (proj2 (Hadm i a p Hi Hpi)) as Hpa0. unfold position_at in *.
    destruct (h !! a) as [n|], (h2 !! a) as [n'|]; try discriminate. cbn in *. f_equal. apply strip_bare_pos; congruence.
  Qed.
End IkProofs.
