(** * The methods of [Chain], funcs.rs and the solver in the logic of Safe.v *)
From Coq Require Import String NArith.
From stdpp Require Import gmap.
From Verif Require Import Scalar Geometry Joint Link Prog NodeM ChainM FuncsM IkM Safe SafeNode.

Section SafeChain.
  Context {T : Type} `{Sc : Scalar T} (m : mode T).
  Implicit Types (pub : gmap nat bool) (c : chain).

  Definition chain_shared pub c : Prop := Forall (shared pub) (c_nodes c) /\ Forall (shared pub) (c_movable c).
  Lemma chain_shared_mono pub pub' c : pub ⊆ pub' -> chain_shared pub c -> chain_shared pub' c.
  Proof. intros Hs [H1 H2]. split; eapply Forall_shared_mono; eauto. Qed.

  Lemma tri_from_nodes pub l : Forall (shared pub) l -> tri m pub (from_nodes l) chain_shared.
  Proof.
    intros Hl. eapply tri_bind.
    { apply (tri_filterM m _ (fun pub a => shared pub a)); [intros p p' x Hs H; exact (shared_mono p p' x Hs H)| |exact Hl].
      intros pub' a Ha. apply tri_any. assumption. }
    intros pub' mv Hs Hmv. apply tri_ret. split; cbn; [eapply Forall_shared_mono; eauto|assumption].
  Qed.
  Lemma tri_from_root fuel pub a : shared pub a -> tri m pub (from_root fuel a) chain_shared.
  Proof.
    intros Ha. eapply tri_bind; [apply tri_descendants; repeat constructor; exact Ha|].
    intros pub' l Hs Hl. apply tri_from_nodes. assumption.
  Qed.
  Lemma Forall_rev_shared pub l : Forall (shared pub) l -> Forall (shared pub) (rev l).
  Proof.
    rewrite !Forall_forall. intros H x Hx. apply H. rewrite elem_of_list_In, <- in_rev, <- elem_of_list_In in Hx. assumption.
  Qed.
  Lemma tri_from_end fuel pub a : shared pub a -> tri m pub (from_end fuel a) chain_shared.
  Proof.
    intros Ha. eapply tri_bind; [apply tri_ancestors; exact Ha|].
    intros pub' l Hs Hl. apply tri_from_nodes. apply Forall_rev_shared. assumption.
  Qed.
  Lemma tri_ancestors_until fuel root : forall pub it, opt_shared pub it ->
    tri m pub (ancestors_until fuel it root) (fun pub' l => Forall (shared pub') l).
  Proof.
    induction fuel as [|fuel IH]; intros pub it Hit; cbn [ancestors_until]; [apply tri_nofuel|].
    eapply tri_bind; [apply tri_ancestors_next; assumption|]. intros pub' [[a it']|] Hs Ho; [|apply tri_ret; constructor].
    destruct Ho as (_ & Ha & Hit'). destruct (decide (a = root)); [apply tri_ret; repeat constructor; assumption|].
    eapply tri_bind; [apply IH; exact Hit'|].
    intros pub'' l Hs' Hl. apply tri_ret. constructor; [eapply shared_mono; eauto|assumption].
  Qed.
  Lemma tri_from_end_to_root fuel pub a root : shared pub a -> tri m pub (from_end_to_root fuel a root) chain_shared.
  Proof.
    intros Ha. eapply tri_bind; [apply tri_ancestors_until; exact Ha|].
    intros pub' l Hs Hl. apply tri_from_nodes. apply Forall_rev_shared. assumption.
  Qed.

  Lemma tri_head pub c msg : chain_shared pub c ->
    tri m pub (expect (head (c_nodes c)) msg) (fun pub' a => shared pub' a /\ head (c_nodes c) = Some a).
  Proof.
    intros [H _]. apply tri_expect. intros a Ha. split; [|assumption]. destruct (c_nodes c) as [|b l]; [discriminate|].
    cbn in Ha. injection Ha as ->. apply Forall_cons in H as [? _]. assumption.
  Qed.
  Lemma tri_first pub c : chain_shared pub c ->
    tri m pub (first_node c) (fun pub' a => shared pub' a /\ head (c_nodes c) = Some a).
  Proof. apply tri_head. Qed.
  Lemma tri_chain_set_origin pub c o : chain_shared pub c -> (forall a, head (c_nodes c) = Some a -> can_origin m a) ->
    tri m pub (chain_set_origin c o) (fun _ _ => True).
  Proof.
    intros Hc Hcan. eapply tri_bind; [apply tri_first; eassumption|]. intros pub' a Hs [Ha Hh].
    apply (tri_joint m pub' a (fun n => joint_set_origin (n_joint n) o)); [assumption|]. apply Hcan. assumption.
  Qed.
  Lemma tri_chain_origin pub c : chain_shared pub c -> tri m pub (chain_origin c) (fun _ _ => True).
  Proof.
    intros Hc. eapply tri_bind; [apply tri_first; eassumption|]. intros pub' a Hs [Ha Hh]. apply tri_any. assumption.
  Qed.

  (** programs without commands *)
  Definition silent {A} (p : prog T A) : Prop := (exists x, p = Ret x) \/ exists msg, p = Panic msg.
  Lemma silent_expect {A} (o : option A) msg : silent (expect o msg).
  Proof. destruct o; [left; eauto|right; eauto]. Qed.
  Lemma silent_bind {A B} (p : prog T A) (k : A -> prog T B) :
    silent p -> (forall x, silent (k x)) -> silent (bind p k).
  Proof. intros [[x ->]|[msg ->]] Hk; cbn; [apply Hk|right; eauto]. Qed.
  Lemma tri_silent {A} pub (p : prog T A) : silent p -> tri m pub p (fun _ _ => True).
  Proof. intros [[x ->]|[msg ->]]; [apply tri_ret; exact I|apply tri_panic]. Qed.

  Lemma tri_iter_joints {A} pub c (f : joint T -> prog T A) :
    chain_shared pub c -> (forall j, silent (f j)) -> tri m pub (iter_joints c f) (fun _ _ => True).
  Proof.
    intros [_ Hc] Hf. eapply tri_mono; [|apply (tri_mapM m _ (fun pub a => shared pub a) (fun _ _ => True))]; auto.
    - intros p p' x. apply shared_mono.
    - intros pub' a Ha. cbn [bind lock get]. apply safe_section; [assumption|intros; apply may_lock_empty|].
      intros pub'' n Hs Hok _. rewrite insert_empty. destruct (Hf (n_joint n)) as [[x ->]|[msg ->]]; cbn [bind unlock].
      + apply s_unlock_pub; [rewrite lookup_singleton; eauto|]. rewrite delete_singleton. apply s_ret. auto.
      + apply s_panic.
  Qed.
  Lemma tri_joint_positions pub c : chain_shared pub c -> tri m pub (joint_positions c) (fun _ _ => True).
  Proof. intros Hc. apply tri_iter_joints; [assumption|]. intros j. apply silent_expect. Qed.
  Lemma tri_links_loop : forall l pub, Forall (shared pub) l -> tri m pub (links_loop l) (fun _ _ => True).
  Proof.
    induction l as [|a l IH]; intros pub Hl; cbn [links_loop]; [apply tri_ret; exact I|].
    apply Forall_cons in Hl as [Ha Hl].
    eapply tri_bind; [apply tri_any; exact Ha|]. intros pub' b Hs _. destruct b.
    - cbn [bind lock get]. apply safe_section; [eapply shared_mono; eauto|intros; apply may_lock_empty|].
      intros pub'' n Hs' Hok _. rewrite insert_empty. destruct (n_link n) as [x|]; cbn [expect bind unlock]; [|apply s_panic].
      apply s_unlock_pub; [rewrite lookup_singleton; eauto|]. rewrite delete_singleton.
      eapply safe_mono; [|apply (tri_bind m pub'' (links_loop l) (fun xs => Ret (x :: xs)) (fun _ _ => True) (fun _ _ => True))].
      + cbn. intros ? ? ? ? ? (Hq & H). split; [etrans; eauto|assumption].
      + apply IH. eapply Forall_shared_mono; [|exact Hl]. etrans; eauto.
      + intros. apply tri_ret. exact I.
    - apply IH. eapply Forall_shared_mono; eauto.
  Qed.
  Lemma tri_find pub c name : chain_shared pub c -> tri m pub (chain_find c name) opt_shared.
  Proof.
    intros [Hc _]. eapply tri_mono; [|apply (tri_findM m _ (fun pub a => shared pub a))]; auto.
    - intros p p' x. apply shared_mono.
    - intros. apply tri_any. assumption.
  Qed.

  Lemma Forall_zip_l {A} (P : nat -> Prop) (l : list nat) (ps : list A) : Forall P l -> Forall (fun ap => P (fst ap)) (zip l ps).
  Proof.
    revert ps. induction l as [|a l IH]; intros ps H; [constructor|]. destruct ps as [|q ps]; [constructor|].
    apply Forall_cons in H as [Ha H]. constructor; [exact Ha|auto].
  Qed.
  Lemma Forall_zip_in {A} (l : list nat) (ps : list A) : Forall (fun ap => fst ap ∈ l /\ snd ap ∈ ps) (zip l ps).
  Proof.
    apply Forall_forall. intros [a q] H. cbn. apply elem_of_zip_with in H as (x & y & E & Hx & Hy).
    injection E as -> ->. auto.
  Qed.
  Lemma Forall_and2 {A} (P Q : A -> Prop) l : Forall P l -> Forall Q l -> Forall (fun x => P x /\ Q x) l.
  Proof. intros. apply Forall_and. auto. Qed.

  (** permission to set the positions of the movable joints of [c] and, through
      them, of their mimic children *)
  Definition can_set_all c : Prop :=
    (forall a, a ∈ c_movable c -> can_set m a) /\
    (forall a, a ∈ c_movable c -> forall pub n d, node_ok m pub a n -> d ∈ n_mimic_children n -> can_set m d).

  Lemma tri_set_joint_positions pub c ps :
    chain_shared pub c -> can_set_all c -> tri m pub (set_joint_positions c ps) (fun _ _ => True).
  Proof.
    intros [_ Hc] [Hs1 Hs2]. unfold set_joint_positions. destruct (decide _); [|apply tri_ret; exact I].
    apply (tri_forM_try m _ (fun pub ap => shared pub (fst ap) /\ (fst ap ∈ c_movable c /\ snd ap ∈ ps))).
    - intros p p' x Hs [H ?]. split; [eapply shared_mono; eauto|assumption].
    - intros pub' [a q] [Ha [Hin _]]. cbn in *. apply tri_set_joint_position; [assumption|auto|].
      intros pub'' n d _ Hok Hd. eapply Hs2; eauto.
    - apply Forall_and2; [apply Forall_zip_l; assumption|apply Forall_zip_in].
  Qed.
  Lemma tri_set_clamped pub c ps :
    chain_shared pub c -> (forall a q, a ∈ c_movable c -> q ∈ ps -> can_clamp m a q) ->
    tri m pub (set_joint_positions_clamped c ps) (fun _ _ => True).
  Proof.
    intros [_ Hc] Hcan.
    apply (tri_forM_ m _ (fun pub ap => shared pub (fst ap) /\ (fst ap ∈ c_movable c /\ snd ap ∈ ps))).
    - intros p p' x Hs [H ?]. split; [eapply shared_mono; eauto|assumption].
    - intros pub' [a q] [Ha [Hin Hq]]. cbn in *.
      apply (tri_joint m pub' a (fun n => joint_set_clamped (n_joint n) q)); [assumption|]. apply Hcan; assumption.
    - apply Forall_and2; [apply Forall_zip_l; assumption|apply Forall_zip_in].
  Qed.
  Lemma tri_set_unchecked pub c ps :
    chain_shared pub c -> (forall a q, a ∈ c_movable c -> q ∈ ps -> can_unchecked m a q) ->
    tri m pub (set_joint_positions_unchecked c ps) (fun _ _ => True).
  Proof.
    intros [_ Hc] Hcan.
    apply (tri_forM_ m _ (fun pub ap => shared pub (fst ap) /\ (fst ap ∈ c_movable c /\ snd ap ∈ ps))).
    - intros p p' x Hs [H ?]. split; [eapply shared_mono; eauto|assumption].
    - intros pub' [a q] [Ha [Hin Hq]]. cbn in *.
      apply (tri_joint m pub' a (fun n => joint_set_unchecked (n_joint n) q)); [assumption|]. apply Hcan; assumption.
    - apply Forall_and2; [apply Forall_zip_l; assumption|apply Forall_zip_in].
  Qed.

  Definition can_wt_all c : Prop := forall a, a ∈ c_nodes c -> can_wt m a.
  Lemma tri_update_transform pub a : shared pub a -> can_wt m a -> tri m pub (update_transform a) (fun _ _ => True).
  Proof.
    intros Ha Hcan. eapply tri_bind; [apply tri_parent_wt; exact Ha|]. intros pub1 opt S1 _.
    eapply tri_bind; [apply tri_silent; apply silent_expect|]. intros pub2 pt S2 _.
    assert (S : pub ⊆ pub2) by (etrans; eauto).
    eapply tri_bind; [apply tri_any; exact (shared_mono _ _ _ S Ha)|]. intros pub3 lt S3 _.
    assert (S' : pub ⊆ pub3) by (etrans; eauto). cbv zeta.
    eapply tri_bind; [|intros; apply tri_ret; exact I].
    apply (tri_joint m pub3 a (fun n => joint_set_wt (n_joint n) (iso_mul pt lt))); [exact (shared_mono _ _ _ S' Ha)|].
    apply Hcan.
  Qed.
  Lemma tri_update_transforms pub c :
    chain_shared pub c -> can_wt_all c -> tri m pub (update_transforms c) (fun _ _ => True).
  Proof.
    intros [Hc _] Hcan.
    eapply tri_mono; [|apply (tri_mapM m _ (fun pub a => shared pub a /\ a ∈ c_nodes c) (fun _ _ => True))]; auto.
    - intros p p' x Hs [H ?]. split; [eapply shared_mono; eauto|assumption].
    - intros pub' a [Ha Hin]. apply tri_update_transform; auto.
    - apply Forall_and2; [assumption|]. apply Forall_forall. auto.
  Qed.
  Lemma tri_update_links pub c :
    chain_shared pub c -> can_wt_all c -> (forall a, a ∈ c_nodes c -> can_link m a) ->
    tri m pub (update_link_transforms c) (fun _ _ => True).
  Proof.
    intros Hc Hcan Hl. eapply tri_bind; [apply tri_update_transforms; eassumption|]. intros pub1 _ S1 _.
    apply (tri_forM_ m _ (fun pub a => shared pub a /\ a ∈ c_nodes c)).
    - intros p p' x Hs [H ?]. split; [eapply shared_mono; eauto|assumption].
    - intros pub' a [Ha Hin].
      eapply tri_bind; [apply tri_parent_wt; exact Ha|]. intros pub2 opt S2 _.
      eapply tri_bind; [apply tri_silent; apply silent_expect|]. intros pub3 pt S3 _.
      apply (tri_link m pub3 a (fun l => link_update pt <$> l)); [|auto].
      eapply shared_mono; [|exact Ha]. etrans; eauto.
    - apply Forall_and2; [eapply Forall_shared_mono; [exact S1|apply Hc]|]. apply Forall_forall. auto.
  Qed.
  Lemma tri_update_velocities pub c :
    strict m = false -> chain_shared pub c -> can_wt_all c -> (forall a, a ∈ c_nodes c -> can_wv m a) ->
    tri m pub (update_velocities c) (fun _ _ => True).
  Proof.
    intros Es Hc Hcan Hv. eapply tri_bind; [apply tri_update_transforms; eassumption|]. intros pub1 _ S1 _.
    eapply tri_mono; [|apply (tri_mapM m _ (fun pub a => shared pub a /\ a ∈ c_nodes c) (fun _ _ => True))]; auto.
    - intros p p' x Hs [H ?]. split; [eapply shared_mono; eauto|assumption].
    - intros pub' a [Ha Hin]. unfold update_velocity.
      eapply tri_bind; [apply tri_parent_wt; exact Ha|]. intros pub2 opt S2 _.
      eapply tri_bind; [apply tri_silent; apply silent_expect|]. intros pub3 ptf S3 _.
      assert (S : pub' ⊆ pub3) by (etrans; eauto).
      eapply tri_bind; [apply tri_parent_wv; exact (shared_mono _ _ _ S Ha)|]. intros pub4 opv S4 _.
      eapply tri_bind; [apply tri_silent; apply silent_expect|]. intros pub5 pv S5 _.
      assert (Ha5 : shared pub5 a) by (eapply shared_mono; [|exact Ha]; etrans; [exact S|]; etrans; [exact S4|exact S5]).
      cbn [bind lock get]. apply safe_section; [assumption|intros; apply may_lock_empty|].
      intros pub6 n S6 Hok _. rewrite insert_empty.
      unfold velocity_in_match. destruct (j_type (n_joint n)) as [|axis|axis]; cbn [bind unlock].
      + apply s_unlock_pub; [rewrite lookup_singleton; eauto|]. rewrite delete_singleton.
        eapply safe_mono; [|apply (tri_bind m pub6 (modify a (fun n0 => set_n_joint n0 (joint_set_wv (n_joint n0) pv)))
             (fun _ => Ret pv) (fun _ _ => True) (fun _ _ => True))].
        * cbn. intros ? ? ? ? ? (Hq & H). split; [etrans; eauto|assumption].
        * apply (tri_joint m pub6 a (fun n0 => joint_set_wv (n_joint n0) pv)); [eapply shared_mono; eauto|]. apply Hv. assumption.
        * intros. apply tri_ret. exact I.
      + unfold node_parent, node_world_transform, read. cbn [bind lock get].
        apply s_relock; [assumption|]. rewrite lookup_singleton. eauto.
      + unfold node_parent, node_world_transform, read. cbn [bind lock get].
        apply s_relock; [assumption|]. rewrite lookup_singleton. eauto.
    - apply Forall_and2; [eapply Forall_shared_mono; [exact S1|apply Hc]|]. apply Forall_forall. auto.
  Qed.

  Lemma silent_usize_sub ovf a b : silent (usize_sub (T := T) ovf a b).
  Proof. unfold usize_sub. destruct (decide _); [left; eauto|]. destruct ovf; [right|left]; eauto. Qed.
  Lemma tri_all_one_child : forall l pub, Forall (shared pub) l -> tri m pub (all_one_child l) (fun _ _ => True).
  Proof.
    induction l as [|a l IH]; intros pub Hl; cbn [all_one_child]; [apply tri_ret; exact I|].
    apply Forall_cons in Hl as [Ha Hl]. eapply tri_bind; [apply tri_any; exact Ha|].
    intros pub' ch Hs _. destruct (decide _); [|apply tri_ret; exact I]. apply IH. eapply Forall_shared_mono; eauto.
  Qed.
  Lemma tri_try_new ovf pub c : chain_shared pub c ->
    tri m pub (try_new ovf c) (fun pub' o => match o with Some c' => chain_shared pub' c' | None => True end).
  Proof.
    intros Hc. eapply tri_bind; [apply tri_silent; apply silent_usize_sub|]. intros pub1 k S1 _.
    eapply tri_bind; [apply tri_all_one_child|].
    - apply Forall_take. eapply Forall_shared_mono; [exact S1|apply Hc].
    - intros pub2 b S2 _. apply tri_ret. destruct b; [|exact I]. eapply chain_shared_mono; [|exact Hc]. etrans; eauto.
  Qed.
  Lemma tri_end_fold : forall l acc pub, Forall (shared pub) l -> tri m pub (end_fold acc l) (fun _ _ => True).
  Proof.
    induction l as [|a l IH]; intros acc pub Hl; cbn [end_fold]; [apply tri_ret; exact I|].
    apply Forall_cons in Hl as [Ha Hl]. eapply tri_bind; [apply tri_any; exact Ha|].
    intros pub' lt Hs _. apply IH. eapply Forall_shared_mono; eauto.
  Qed.
  Lemma tri_end_transform pub c : chain_shared pub c -> tri m pub (end_transform c) (fun _ _ => True).
  Proof. intros [Hc _]. apply tri_end_fold. assumption. Qed.
  Lemma tri_jacobian pub c : chain_shared pub c -> can_wt_all c -> tri m pub (jacobian c) (fun _ _ => True).
  Proof.
    intros Hc Hcan. eapply tri_bind; [apply tri_end_transform; exact Hc|]. intros pub1 tn S1 _.
    pose proof (chain_shared_mono _ _ _ S1 Hc) as Hc1.
    eapply tri_bind; [apply tri_update_transforms; [exact Hc1|exact Hcan]|]. intros pub2 _ S2 _.
    pose proof (chain_shared_mono _ _ _ S2 Hc1) as Hc2. cbv zeta.
    eapply tri_bind; [apply tri_iter_joints; [exact Hc2|]|].
    { intros j. apply silent_bind; [apply silent_expect|]. intros t. unfold jacobian_column.
      destruct (j_type j); [right|left|left]; eauto. }
    intros pub3 cols S3 _. destruct (decide _); [apply tri_ret; exact I|apply tri_panic].
  Qed.
  Lemma tri_center_of_mass pub c : chain_shared pub c -> can_wt_all c -> tri m pub (center_of_mass c) (fun _ _ => True).
  Proof.
    intros Hc Hcan. eapply tri_bind; [apply tri_update_transforms; [exact Hc|exact Hcan]|]. intros pub1 _ S1 _.
    destruct (chain_shared_mono _ _ _ S1 Hc) as [Hc1 _].
    eapply tri_bind; [|intros; apply tri_ret; exact I].
    revert Hc1. generalize (v0, szero : T). generalize (c_nodes c) at 1 2. clear S1 Hc Hcan. intros l. revert pub1.
    induction l as [|a l IH]; intros pub1 acc Hl; cbn [com_loop]; [apply tri_ret; exact I|].
    apply Forall_cons in Hl as [Ha Hl]. eapply tri_bind.
    { unfold com_step. eapply tri_bind; [apply tri_any; exact Ha|]. intros pub2 [t|] S2 _; [|apply tri_ret; exact I].
      apply tri_any. eapply shared_mono; eauto. }
    intros pub2 acc' S2 _. apply IH. eapply Forall_shared_mono; eauto.
  Qed.

  (** ** the solver *)
  Definition can_solve c : Prop :=
    can_wt_all c /\ can_set_all c /\ forall a q, a ∈ c_movable c -> can_clamp m a q.

  Lemma silent_remove_nth {A} i (l : list A) : silent (remove_nth (T := T) i l).
  Proof. unfold remove_nth. destruct (decide _); [left|right]; eauto. Qed.
  Lemma silent_insert_nth {A} i x (l : list A) : silent (insert_nth (T := T) i x l).
  Proof. unfold insert_nth. destruct (decide _); [left|right]; eauto. Qed.
  Lemma silent_remove_rows ovf : forall ops i r M, silent (remove_rows ovf i r ops M).
  Proof.
    induction ops as [|b ops IH]; intros i r M; cbn [remove_rows]; [left; eauto|]. destruct b; [apply IH|].
    apply silent_bind; [apply silent_usize_sub|]. intros k. destruct (decide _); [apply IH|right; eauto].
  Qed.
  Lemma silent_remove_columns {A} ovf : forall idx i (l : list A), silent (remove_columns ovf i idx l).
  Proof.
    induction idx as [|j idx IH]; intros i l; cbn [remove_columns]; [left; eauto|].
    apply silent_bind; [apply silent_usize_sub|]. intros k. apply silent_bind; [apply silent_remove_nth|]. auto.
  Qed.
  Lemma silent_insert_rows : forall idx l, silent (insert_rows idx l).
  Proof.
    induction idx as [|j idx IH]; intros l; cbn [insert_rows]; [left; eauto|].
    apply silent_bind; [apply silent_insert_nth|]. auto.
  Qed.
  Lemma silent_new_positions ovf la s orig err jac av req idx :
    silent (new_positions ovf la s orig err jac av req idx).
  Proof.
    unfold new_positions. destruct (decide _).
    - destruct (nullspace_function s).
      + apply silent_bind; [apply silent_expect|]. intros jinv.
        apply silent_bind; [apply silent_expect|]. intros sub.
        apply silent_bind; [apply silent_remove_columns|]. intros sub'.
        destruct (decide _); [|right; eauto].
        apply silent_bind; [apply silent_insert_rows|]. intros. left; eauto.
      + apply silent_bind; [apply silent_expect|]. intros dq.
        apply silent_bind; [apply silent_insert_rows|]. intros. left; eauto.
    - destruct (lu_solve la jac err); left; eauto.
  Qed.
  Lemma tri_one_loop ovf la s pub c target ops idx :
    chain_shared pub c -> can_solve c ->
    tri m pub (solve_one_loop_with_constraints ovf la s c target ops idx) (fun _ _ => True).
  Proof.
    intros Hc (C1 & C2 & C3). unfold solve_one_loop_with_constraints. cbv zeta.
    eapply tri_bind; [apply tri_joint_positions; exact Hc|]. intros pub1 orig S1 _.
    pose proof (chain_shared_mono _ _ _ S1 Hc) as Hc1.
    eapply tri_bind; [apply tri_silent; apply silent_usize_sub|]. intros pub2 av S2 _.
    pose proof (chain_shared_mono _ _ _ S2 Hc1) as Hc2.
    eapply tri_bind; [apply tri_end_transform; exact Hc2|]. intros pub3 tn S3 _.
    pose proof (chain_shared_mono _ _ _ S3 Hc2) as Hc3.
    eapply tri_bind; [apply tri_jacobian; [exact Hc3|exact C1]|]. intros pub4 jac S4 _.
    pose proof (chain_shared_mono _ _ _ S4 Hc3) as Hc4.
    eapply tri_bind; [apply tri_silent; apply silent_remove_rows|]. intros pub5 jac5 S5 _.
    pose proof (chain_shared_mono _ _ _ S5 Hc4) as Hc5.
    eapply tri_bind; [apply tri_silent; apply silent_remove_columns|]. intros pub6 cols S6 _.
    pose proof (chain_shared_mono _ _ _ S6 Hc5) as Hc6.
    eapply tri_bind; [apply tri_silent; apply silent_new_positions|]. intros pub7 r S7 _.
    pose proof (chain_shared_mono _ _ _ S7 Hc6) as Hc7.
    destruct r as [ps|e]; [|apply tri_ret; exact I].
    eapply tri_bind; [apply tri_set_clamped; [exact Hc7|auto]|]. intros pub8 _ S8 _.
    pose proof (chain_shared_mono _ _ _ S8 Hc7) as Hc8.
    eapply tri_bind; [apply tri_end_transform; exact Hc8|]. intros. apply tri_ret. exact I.
  Qed.
  Lemma tri_ignored_indices c : forall names pub, chain_shared pub c ->
    tri m pub (ignored_indices c names) (fun _ _ => True).
  Proof.
    induction names as [|nm names IH]; intros pub Hc; cbn [ignored_indices]; [apply tri_ret; exact I|].
    eapply tri_bind.
    - apply (tri_positionM m _ (fun pub a => shared pub a)); [intros p p' x; apply shared_mono| |apply Hc].
      intros. apply tri_any. assumption.
    - intros pub1 [i|] S1 _; [|apply tri_ret; exact I].
      eapply tri_bind; [apply IH; eapply chain_shared_mono; eauto|]. intros. apply tri_ret. exact I.
  Qed.
  Lemma tri_ik_loop ovf la s c target ops idx orig : can_solve c ->
    forall n last pub, chain_shared pub c ->
    tri m pub (ik_loop ovf la s c target ops idx orig n last) (fun _ _ => True).
  Proof.
    intros Hcan. induction n as [|n IH]; intros last pub Hc; cbn [ik_loop].
    - eapply tri_bind; [apply tri_set_joint_positions; [exact Hc|apply Hcan]|]. intros pub1 [|e] S1 _; [|apply tri_ret; exact I].
      eapply tri_bind; [apply tri_silent; apply silent_expect|]. intros. apply tri_ret. exact I.
    - eapply tri_bind; [apply tri_one_loop; [exact Hc|exact Hcan]|]. intros pub1 [diff|e] S1 _; [|apply tri_ret; exact I].
      pose proof (chain_shared_mono _ _ _ S1 Hc) as Hc1. cbv zeta.
      destruct (reached s _); [|auto].
      eapply tri_bind; [apply tri_joint_positions; exact Hc1|]. intros pub2 ps S2 _.
      eapply tri_bind; [apply tri_set_clamped; [eapply chain_shared_mono; eauto|intros; apply Hcan; assumption]|].
      intros. apply tri_ret. exact I.
  Qed.
  Lemma tri_solve_with_constraints ovf la s pub c target cs :
    chain_shared pub c -> can_solve c ->
    tri m pub (solve_with_constraints ovf la s c target cs) (fun _ _ => True).
  Proof.
    intros Hc Hcan. unfold solve_with_constraints, solve_with_constraints_internal. cbv zeta.
    eapply tri_bind; [apply tri_joint_positions; exact Hc|]. intros pub1 orig S1 _.
    pose proof (chain_shared_mono _ _ _ S1 Hc) as Hc1.
    eapply (tri_bind m pub1 _ _ (fun _ _ => True)).
    - eapply tri_bind; [apply tri_joint_positions; exact Hc1|]. intros pub2 orig2 S2 _.
      pose proof (chain_shared_mono _ _ _ S2 Hc1) as Hc2.
      eapply tri_bind; [apply tri_silent; apply silent_usize_sub|]. intros pub3 av S3 _.
      pose proof (chain_shared_mono _ _ _ S3 Hc2) as Hc3.
      destruct (decide _); [apply tri_ret; exact I|].
      eapply tri_bind; [apply tri_ignored_indices; exact Hc3|]. intros pub4 [idx|e] S4 _; [|apply tri_ret; exact I].
      apply tri_ik_loop; [exact Hcan|]. eapply chain_shared_mono; eauto.
    - intros pub2 re S2 _. destruct (is_err re); [|apply tri_ret; exact I].
      eapply tri_bind; [apply tri_set_joint_positions; [eapply chain_shared_mono; [|exact Hc1]; eauto|apply Hcan]|].
      intros pub3 [|e] S3 _; apply tri_ret; exact I.
  Qed.

  (** ** Display (outside the lock discipline) *)
  Definition keep {A} hp pub (p : prog T A) : Prop :=
    safe m (fun pub' priv hp' hv _ => pub ⊆ pub' /\ priv = ∅ /\ hp' = hp /\ hv = ∅) pub ∅ hp ∅ p.
  Lemma keep_ret {A} hp pub (x : A) : keep hp pub (Ret x).
  Proof. apply s_ret. auto. Qed.
  Lemma keep_bind {A B} hp pub (p : prog T A) (k : A -> prog T B) :
    keep hp pub p -> (forall pub' x, pub ⊆ pub' -> keep hp pub' (k x)) -> keep hp pub (bind p k).
  Proof.
    intros Hp Hk. apply safe_bind. eapply safe_mono; [|exact Hp]. cbn.
    intros pub' priv hp' hv x (Hs & -> & -> & ->). eapply safe_mono; [|exact (Hk _ x Hs)]. cbn.
    intros pub'' priv hp'' hv y (Hs' & H). split; [etrans; eauto|assumption].
  Qed.
  Lemma keep_fmt nodes (Es : strict m = false) : forall fuel a level pub hp,
    shared pub a -> keep hp pub (fmt_with_indent_level fuel nodes a level).
  Proof.
    induction fuel as [|fuel IH]; intros a level pub hp Ha; cbn [fmt_with_indent_level].
    { apply s_nofuel. congruence. }
    destruct (hp !! a) as [x|] eqn:Ehp.
    { destruct (decide (a ∈ nodes)); unfold node_fmt, read, lock; cbn [bind];
        (apply s_relock; [assumption|rewrite Ehp; eauto]). }
    apply keep_bind.
    { destruct (decide (a ∈ nodes)); [|apply keep_ret]. apply keep_bind; [|intros; apply keep_ret].
      apply safe_read; [assumption|congruence|assumption|]. auto. }
    intros pub0 line S0. cbn [bind lock get]. apply safe_section; [eapply shared_mono; eauto|congruence|].
    intros pub1 n S1 Hok _. pose proof (ok_children _ _ _ _ Hok) as Hch.
    apply safe_bind. eapply safe_mono; [|].
    2:{ assert (Hloop : forall l pub2, Forall (shared pub2) l ->
          keep (<[a := Some n]> hp) pub2 (mapM (fun ch => fmt_with_indent_level fuel nodes ch (S level)) l)).
        { induction l as [|d l IHl]; intros pub2 Hl; cbn [mapM]; [apply keep_ret|].
          apply Forall_cons in Hl as [Hd Hl]. apply keep_bind; [apply IH; assumption|]. intros pub3 str S3.
          apply keep_bind; [apply IHl; eapply Forall_shared_mono; eauto|]. intros. apply keep_ret. }
        apply Hloop. apply Forall_forall. exact Hch. }
    cbn. intros pub2 priv2 hp2 hv2 rest (S2 & -> & -> & ->). cbn [bind unlock].
    apply s_unlock_pub; [rewrite lookup_insert; eauto|]. rewrite delete_insert by assumption. apply s_ret.
    split; [etrans; eauto|]. auto.
  Qed.
  Lemma tri_chain_fmt fuel pub c : strict m = false -> chain_shared pub c ->
    tri m pub (chain_fmt fuel c) (fun _ _ => True).
  Proof.
    intros Es Hc. eapply tri_bind; [apply tri_head; exact Hc|]. intros pub' a S [Ha _].
    eapply safe_mono; [|apply (keep_fmt _ Es); exact Ha]. cbn. intros ? ? ? ? ? (? & ? & ? & ?). auto 10.
  Qed.

  (** ** Clone: the new nodes are private until the copy is complete *)
  Definition can_clone : Prop := forall a b n n', extra m a n -> n_joint n' = n_joint n -> extra m b n' /\ fresh_ok m n'.
  Record copy_ok pub (priv : gmap nat (node T)) : Prop := {
    co_disj : forall b, is_Some (priv !! b) -> pub !! b = None;
    co_children : forall b n d, priv !! b = Some n -> d ∈ n_children n -> is_Some (priv !! d);
    co_mimic_children : forall b n d, priv !! b = Some n -> d ∈ n_mimic_children n ->
      exists nd, priv !! d = Some nd /\ is_Some (n_mimic_parent nd) /\ is_Some (n_mimic nd);
    co_parent : forall b n w, priv !! b = Some n -> n_parent n = Some w -> is_Some (priv !! w);
    co_mimic_parent : forall b n w, priv !! b = Some n -> n_mimic_parent n = Some w -> is_Some (priv !! w);
    co_joint : forall b n, priv !! b = Some n -> exists a n0, extra m a n0 /\ n_joint n = n_joint n0;
  }.
  (** between two statements of clone: no lock held *)
  Definition cl {A} pub priv (p : prog T A) (R : gmap nat bool -> gmap nat (node T) -> A -> Prop) : Prop :=
    safe m (fun pub' priv' hp hv x => pub ⊆ pub' /\ hp = ∅ /\ hv = ∅ /\ copy_ok pub' priv' /\
      (forall b, is_Some (priv !! b) -> is_Some (priv' !! b)) /\ R pub' priv' x) pub priv ∅ ∅ p.
  Lemma cl_ret {A} pub priv (x : A) (R : _ -> _ -> _ -> Prop) : copy_ok pub priv -> R pub priv x -> cl pub priv (Ret x) R.
  Proof. intros H1 H2. apply s_ret. auto 10. Qed.
  Lemma cl_bind {A B} pub priv (p : prog T A) (k : A -> prog T B) (R R' : _ -> _ -> _ -> Prop) :
    cl pub priv p R ->
    (forall pub' priv' x, pub ⊆ pub' -> copy_ok pub' priv' ->
       (forall b, is_Some (priv !! b) -> is_Some (priv' !! b)) -> R pub' priv' x -> cl pub' priv' (k x) R') ->
    cl pub priv (bind p k) R'.
  Proof.
    intros Hp Hk. apply safe_bind. eapply safe_mono; [|exact Hp]. cbn.
    intros pub' priv' hp hv x (S1 & -> & -> & Hco & Hd & Hx).
    eapply safe_mono; [|exact (Hk _ _ x S1 Hco Hd Hx)]. cbn.
    intros pub2 priv2 hp hv y (S2 & -> & -> & Hco2 & Hd2 & Hy).
    split; [etrans; eauto|]. repeat (split; [solve [auto]|]). assumption.
  Qed.
  Lemma cl_expect {A} pub priv (o : option A) msg (R : _ -> _ -> _ -> Prop) :
    copy_ok pub priv -> (forall x, o = Some x -> R pub priv x) -> cl pub priv (expect o msg) R.
  Proof. intros Hc H. destruct o; [apply cl_ret; auto|apply s_panic]. Qed.
  Lemma copy_ok_pub pub pub' priv :
    (forall b, is_Some (priv !! b) -> pub' !! b = None) -> copy_ok pub priv -> copy_ok pub' priv.
  Proof. intros Hd [? ? ? ? ? ?]. split; assumption. Qed.
  (** the references of the nodes under construction stay among them *)
  Definition refs_in (priv : gmap nat (node T)) : Prop :=
    forall b n d, priv !! b = Some n -> d ∈ strong_refs n ++ weak_refs n -> is_Some (priv !! d).
  Definition grows_refs (priv : gmap nat (node T)) (n0 n : node T) : Prop :=
    (forall d, d ∈ strong_refs n ++ weak_refs n -> d ∈ strong_refs n0 ++ weak_refs n0 \/ is_Some (priv !! d)) /\
    (forall d, d ∈ strong_refs n0 -> d ∈ strong_refs n).
  Lemma copy_ok_refs_in pub priv : copy_ok pub priv -> refs_in priv.
  Proof.
    intros [_ C2 C3 C4 C5 _] b n d Hb Hd. apply elem_of_app in Hd as [Hd|Hd]; apply elem_of_app in Hd as [Hd|Hd].
    - eauto.
    - destruct (C3 _ _ _ Hb Hd) as (nd & H & _). eauto.
    - destruct (n_parent n) eqn:E; [|apply elem_of_nil in Hd; contradiction].
      apply elem_of_list_singleton in Hd as ->. eauto.
    - destruct (n_mimic_parent n) eqn:E; [|apply elem_of_nil in Hd; contradiction].
      apply elem_of_list_singleton in Hd as ->. eauto.
  Qed.
  Lemma refs_in_insert priv a n0 n : refs_in priv -> priv !! a = Some n0 -> grows_refs priv n0 n -> refs_in (<[a := n]> priv).
  Proof.
    intros H Ha [Hg _] b n1 d Hb Hd. apply lookup_insert_is_Some'. right.
    apply lookup_insert_Some in Hb as [[<- <-]|[_ Hb]]; [|eapply H; eauto].
    destruct (Hg d Hd) as [Hd'|Hd']; [eapply H; eauto|assumption].
  Qed.
  Lemma grows_priv_refs pub priv a n0 n : refs_in priv -> priv !! a = Some n0 -> grows_refs priv n0 n -> priv_refs pub priv a n.
  Proof.
    intros H Ha [Hg1 Hg2]. split.
    - intros c Hc. right. destruct (Hg1 c Hc) as [Hc'|Hc']; [eapply H; eauto|assumption].
    - intros n1 c Hn1 Hc. apply Hg2. congruence.
  Qed.
  Lemma grows_same priv n0 n : strong_refs n = strong_refs n0 -> weak_refs n = weak_refs n0 -> grows_refs priv n0 n.
  Proof. intros E1 E2. split; intros d; rewrite ?E1, ?E2; auto. Qed.
  Lemma grows_child priv n0 (c : nat) : is_Some (priv !! c) -> grows_refs priv n0 (set_n_children n0 (n_children n0 ++ [c])).
  Proof.
    intros Hc. split; intros d; unfold strong_refs, weak_refs; cbn; rewrite ?elem_of_app, ?elem_of_cons, ?elem_of_app, ?elem_of_nil; naive_solver.
  Qed.
  Lemma grows_mimic_child priv n0 (c : nat) : is_Some (priv !! c) ->
    grows_refs priv n0 (set_n_mimic_children n0 (n_mimic_children n0 ++ [c])).
  Proof.
    intros Hc. split; intros d; unfold strong_refs, weak_refs; cbn; rewrite ?elem_of_app, ?elem_of_cons, ?elem_of_app, ?elem_of_nil; naive_solver.
  Qed.
  Lemma grows_parent priv n0 (c : nat) : is_Some (priv !! c) -> grows_refs priv n0 (set_n_parent n0 (Some c)).
  Proof.
    intros Hc. split; intros d; unfold strong_refs, weak_refs; cbn; rewrite ?elem_of_app, ?elem_of_cons, ?elem_of_app, ?elem_of_nil; naive_solver.
  Qed.
  Lemma grows_mimic_parent priv n0 (c : nat) : is_Some (priv !! c) -> grows_refs priv n0 (set_n_mimic_parent n0 (Some c)).
  Proof.
    intros Hc. split; intros d; unfold strong_refs, weak_refs; cbn; rewrite ?elem_of_app, ?elem_of_cons, ?elem_of_app, ?elem_of_nil; naive_solver.
  Qed.
  Lemma safe_modify_priv pub priv hp hv a n (F : node T -> node T) (Q : _ -> _ -> _ -> _ -> _ -> Prop) :
    priv !! a = Some n -> a ∉ hv -> refs_in priv -> grows_refs priv n (F n) -> Q pub (<[a := F n]> priv) hp hv tt -> safe m Q pub priv hp hv (modify a F).
  Proof.
    intros Hn Hv Hin Hg HQ. apply s_lock_priv; [eauto|assumption|].
    eapply s_get_priv; [set_solver|exact Hn|]. apply s_put_priv; [set_solver|eauto|eapply grows_priv_refs; eauto|].
    apply s_unlock_priv; [set_solver|]. apply s_ret.
    replace (({[a]} ∪ hv) ∖ {[a]}) with hv by set_solver. assumption.
  Qed.

  (** the weak references of a shared node *)
  Lemma cl_weak pub priv a (f : node T -> option nat) :
    copy_ok pub priv -> shared pub a -> (forall pub' n, node_ok m pub' a n -> ref_ok m pub' (f n)) ->
    cl pub priv (lock a ;;; n <- get a ;;
               match f n with
               | Some w => b <- upgrade w ;; unlock a ;;; Ret (if b : bool then Some w else None)
               | None => unlock a ;;; Ret None
               end) (fun _ priv' _ => priv' = priv).
  Proof.
    intros Hco Ha Hf. cbn [bind lock get]. apply safe_section; [assumption|intros; apply may_lock_empty|].
    intros pub' n Hs Hok Hd. rewrite insert_empty. specialize (Hf _ _ Hok).
    pose proof (copy_ok_pub _ _ _ Hd Hco) as Hco'.
    destruct (f n) as [w|]; cbn [bind unlock upgrade].
    - destruct Hf as [Hw|Hw].
      + apply s_upgrade_pub; [assumption|].
        apply s_unlock_pub; [rewrite lookup_singleton; eauto|]. rewrite delete_singleton. apply s_ret. auto 10.
      + apply s_upgrade_dead; [assumption|].
        apply s_unlock_pub; [rewrite lookup_singleton; eauto|]. rewrite delete_singleton. apply s_ret. auto 10.
    - apply s_unlock_pub; [rewrite lookup_singleton; eauto|]. rewrite delete_singleton. apply s_ret. auto 10.
  Qed.

  Lemma copy_ok_fresh pub priv a j l :
    copy_ok pub priv -> pub !! a = None -> priv !! a = None -> (exists b n0, extra m b n0 /\ j = n_joint n0) ->
    copy_ok pub (<[a := set_n_link (fresh_node j) l]> priv).
  Proof.
    intros [C1 C2 C3 C4 C5 C6] Ha Hv Hj.
    assert (Hdom : forall b, is_Some (priv !! b) -> is_Some (<[a := set_n_link (fresh_node j) l]> priv !! b)).
    { intros b Hb. apply lookup_insert_is_Some'. auto. }
    split.
    - intros b Hb. apply lookup_insert_is_Some' in Hb as [<-|Hb]; auto.
    - intros b n d Hb Hd. apply lookup_insert_Some in Hb as [[<- <-]|[Hne Hb]]; [apply elem_of_nil in Hd; contradiction|].
      apply Hdom. eauto.
    - intros b n d Hb Hd. apply lookup_insert_Some in Hb as [[<- <-]|[Hne Hb]]; [apply elem_of_nil in Hd; contradiction|].
      destruct (C3 _ _ _ Hb Hd) as (nd & H1 & H2). exists nd.
      rewrite lookup_insert_ne by congruence. auto.
    - intros b n w Hb Hw. apply lookup_insert_Some in Hb as [[<- <-]|[Hne Hb]]; [discriminate|]. apply Hdom. eauto.
    - intros b n w Hb Hw. apply lookup_insert_Some in Hb as [[<- <-]|[Hne Hb]]; [discriminate|]. apply Hdom. eauto.
    - intros b n Hb. apply lookup_insert_Some in Hb as [[<- <-]|[Hne Hb]]; [|eauto].
      destruct Hj as (c0 & n0 & He & ->). eauto.
  Qed.
  Lemma cl_clone_node pub priv a : copy_ok pub priv -> shared pub a ->
    cl pub priv (clone_node a) (fun _ priv' nn => is_Some (priv' !! nn)).
  Proof.
    intros Hco Ha. unfold clone_node. cbn [bind lock get].
    apply safe_section; [assumption|intros; apply may_lock_empty|].
    intros pub1 n S1 Hok1 Hd1. rewrite insert_empty. cbn [bind node_new new].
    apply s_new; [reflexivity|]. intros nn Hn1 Hn2 _. cbn [bind unlock].
    apply s_unlock_pub; [rewrite lookup_singleton; eauto|]. rewrite delete_singleton.
    apply safe_section; [eapply shared_mono; eauto|intros; apply may_lock_empty|].
    intros pub2 n2 S2 Hok2 Hd2. rewrite insert_empty. apply safe_bind.
    eapply safe_modify_priv; [apply lookup_insert|set_solver| |apply grows_same; reflexivity|].
    { intros b n1 d Hb Hd. apply lookup_insert_is_Some'. right.
      apply lookup_insert_Some in Hb as [[<- <-]|[_ Hb]]; [apply elem_of_nil in Hd; contradiction|].
      eapply copy_ok_refs_in; eauto. }
    cbn [bind unlock]. rewrite insert_insert.
    apply s_unlock_pub; [rewrite lookup_singleton; eauto|]. rewrite delete_singleton. apply s_ret.
    split; [etrans; eauto|]. split; [reflexivity|]. split; [reflexivity|].
    split; [|split].
    - apply copy_ok_fresh; [|apply Hd2; rewrite lookup_insert; eauto|assumption|].
      + apply (copy_ok_pub pub); [|assumption]. intros b Hb. apply Hd2. apply lookup_insert_is_Some'. auto.
      + exists a, n. split; [apply (ok_extra _ _ _ _ Hok1)|reflexivity].
    - intros b Hb. apply lookup_insert_is_Some'. auto.
    - rewrite lookup_insert. eauto.
  Qed.
  Lemma cl_clone_nodes : forall l pub priv, copy_ok pub priv -> Forall (shared pub) l ->
    cl pub priv (mapM clone_node l) (fun _ priv' news => Forall (fun b => is_Some (priv' !! b)) news).
  Proof.
    induction l as [|a l IH]; intros pub priv Hco Hl; cbn [mapM]; [apply cl_ret; [assumption|constructor]|].
    apply Forall_cons in Hl as [Ha Hl].
    eapply cl_bind; [apply cl_clone_node; eassumption|]. intros pub1 priv1 nn S1 Hco1 Hd1 Hnn.
    eapply cl_bind; [apply IH; [assumption|eapply Forall_shared_mono; eauto]|].
    intros pub2 priv2 news S2 Hco2 Hd2 Hnews. apply cl_ret; [assumption|]. constructor; auto.
  Qed.
  (** connecting two private nodes *)
  Lemma copy_ok_upd pub priv a n n' :
    copy_ok pub priv -> priv !! a = Some n -> n_joint n' = n_joint n ->
    (forall d, d ∈ n_children n' -> is_Some (priv !! d)) ->
    (forall d, d ∈ n_mimic_children n' -> exists nd, <[a := n']> priv !! d = Some nd /\ is_Some (n_mimic_parent nd) /\ is_Some (n_mimic nd)) ->
    (forall w, n_parent n' = Some w -> is_Some (priv !! w)) ->
    (forall w, n_mimic_parent n' = Some w -> is_Some (priv !! w)) ->
    (is_Some (n_mimic_parent n) -> is_Some (n_mimic_parent n')) -> (is_Some (n_mimic n) -> is_Some (n_mimic n')) ->
    copy_ok pub (<[a := n']> priv).
  Proof.
    intros [C1 C2 C3 C4 C5 C6] Ha Hj H1 H2 H3 H4 H5 H6.
    assert (Hdom : forall b, is_Some (<[a := n']> priv !! b) <-> is_Some (priv !! b)).
    { intros b. rewrite lookup_insert_is_Some'. split; [intros [<-|?]; eauto|auto]. }
    split.
    - intros b Hb. apply Hdom in Hb. auto.
    - intros b nb d Hb Hd. apply Hdom. apply lookup_insert_Some in Hb as [[<- <-]|[Hne Hb]]; eauto.
    - intros b nb d Hb Hd. apply lookup_insert_Some in Hb as [[<- <-]|[Hne Hb]]; [auto|].
      destruct (C3 _ _ _ Hb Hd) as (nd & E1 & E2 & E3).
      destruct (decide (d = a)) as [->|Hda].
      + exists n'. rewrite lookup_insert. split; [reflexivity|]. assert (nd = n) as -> by congruence. auto.
      + exists nd. rewrite lookup_insert_ne by congruence. auto.
    - intros b nb w Hb Hw. apply Hdom. apply lookup_insert_Some in Hb as [[<- <-]|[Hne Hb]]; eauto.
    - intros b nb w Hb Hw. apply Hdom. apply lookup_insert_Some in Hb as [[<- <-]|[Hne Hb]]; eauto.
    - intros b nb Hb. apply lookup_insert_Some in Hb as [[<- <-]|[Hne Hb]]; [|eauto].
      rewrite Hj. eauto.
  Qed.
  Lemma cl_set_parent pub priv na np :
    copy_ok pub priv -> is_Some (priv !! na) -> is_Some (priv !! np) ->
    cl pub priv (node_set_parent na np) (fun _ _ _ => True).
  Proof.
    intros Hco [n Hn] Hp. unfold node_set_parent. apply safe_bind.
    eapply safe_modify_priv; [exact Hn|set_solver|eapply copy_ok_refs_in; eauto|apply grows_parent; assumption|].
    assert (Hco1 : copy_ok pub (<[na := set_n_parent n (Some np)]> priv)).
    { eapply copy_ok_upd; try eassumption; cbn; auto.
      - intros d Hd. eapply co_children; eauto.
      - intros d Hd. destruct (co_mimic_children _ _ Hco _ _ _ Hn Hd) as (nd & E1 & E2 & E3).
        destruct (decide (d = na)) as [->|Hne].
        + eexists. rewrite lookup_insert. split; [reflexivity|]. assert (nd = n) as -> by congruence. auto.
        + exists nd. rewrite lookup_insert_ne by congruence. auto.
      - intros w [= <-]. assumption.
      - intros w Hw. eapply co_mimic_parent; eauto. }
    assert (Hp1 : is_Some (<[na := set_n_parent n (Some np)]> priv !! np)) by (apply lookup_insert_is_Some'; auto).
    destruct Hp1 as [n1 Hn1].
    eapply safe_modify_priv; [exact Hn1|set_solver|eapply copy_ok_refs_in; eauto|apply grows_child; rewrite lookup_insert; eauto|].
    split; [reflexivity|]. split; [reflexivity|]. split; [reflexivity|]. split; [|split; [|exact I]].
    - eapply copy_ok_upd; try eassumption; cbn; auto.
      + intros d Hd. apply elem_of_app in Hd as [Hd|Hd]; [exact (co_children _ _ Hco1 _ _ _ Hn1 Hd)|].
        apply elem_of_list_singleton in Hd as ->. rewrite lookup_insert. eauto.
      + intros d Hd. destruct (co_mimic_children _ _ Hco1 _ _ _ Hn1 Hd) as (nd & E1 & E2 & E3).
        destruct (decide (d = np)) as [->|Hne].
        * eexists. rewrite lookup_insert. split; [reflexivity|]. assert (nd = n1) as -> by congruence. auto.
        * exists nd. rewrite lookup_insert_ne by congruence. auto.
      + intros w Hw. exact (co_parent _ _ Hco1 _ _ _ Hn1 Hw).
      + intros w Hw. exact (co_mimic_parent _ _ Hco1 _ _ _ Hn1 Hw).
    - intros b Hb. apply lookup_insert_is_Some'. right. apply lookup_insert_is_Some'. auto.
  Qed.
  (** the three updates of [set_mimic_parent] on private nodes *)
  Lemma copy_ok_mimic pub priv na nm mi n n1 n2 :
    copy_ok pub priv -> priv !! na = Some n -> is_Some (priv !! nm) ->
    <[na := set_n_mimic_parent n (Some nm)]> priv !! nm = Some n1 ->
    <[nm := set_n_mimic_children n1 (n_mimic_children n1 ++ [na])]>
      (<[na := set_n_mimic_parent n (Some nm)]> priv) !! na = Some n2 ->
    copy_ok pub (<[na := set_n_mimic n2 (Some mi)]>
      (<[nm := set_n_mimic_children n1 (n_mimic_children n1 ++ [na])]>
        (<[na := set_n_mimic_parent n (Some nm)]> priv))).
  Proof.
    intros Hco Hn Hnm Hn1 Hn2.
    assert (HA : copy_ok pub (<[na := set_n_mimic (set_n_mimic_parent n (Some nm)) (Some mi)]> priv)).
    { eapply copy_ok_upd; try eassumption; cbn; eauto.
      - intros d Hd. eapply co_children; eauto.
      - intros d Hd. destruct (co_mimic_children _ _ Hco _ _ _ Hn Hd) as (nd & E1 & E2 & E3).
        destruct (decide (d = na)) as [->|Hne].
        + eexists. rewrite lookup_insert. split; [reflexivity|]. cbn. eauto.
        + exists nd. rewrite lookup_insert_ne by congruence. auto.
      - intros w Hw. eapply co_parent; eauto.
      - intros w [= <-]. assumption. }
    destruct (decide (nm = na)) as [->|Hne].
    - rewrite lookup_insert in Hn1. injection Hn1 as <-. rewrite lookup_insert in Hn2. injection Hn2 as <-.
      rewrite !insert_insert.
      pose proof (copy_ok_upd pub _ na _
        (set_n_mimic (set_n_mimic_children (set_n_mimic_parent n (Some na)) (n_mimic_children n ++ [na])) (Some mi))
        HA (lookup_insert _ _ _)) as HB. rewrite insert_insert in HB. apply HB; cbn; auto.
      + intros d Hd. apply lookup_insert_is_Some'. right. eapply co_children; eauto.
      + intros d Hd. apply elem_of_app in Hd as [Hd|Hd].
        * destruct (co_mimic_children _ _ Hco _ _ _ Hn Hd) as (nd & E1 & E2 & E3).
          destruct (decide (d = na)) as [->|Hnd].
          -- eexists. rewrite lookup_insert. split; [reflexivity|]. cbn. eauto.
          -- exists nd. rewrite lookup_insert_ne by congruence. auto.
        * apply elem_of_list_singleton in Hd as ->. eexists. rewrite lookup_insert. split; [reflexivity|]. cbn. eauto.
      + intros w Hw. apply lookup_insert_is_Some'. right. eapply co_parent; eauto.
      + intros w [= <-]. rewrite lookup_insert. eauto.
    - rewrite lookup_insert_ne in Hn1 by congruence. rewrite lookup_insert_ne, lookup_insert in Hn2 by congruence.
      injection Hn2 as <-. rewrite (insert_commute _ na nm) by congruence. rewrite insert_insert.
      eapply copy_ok_upd; [exact HA|rewrite lookup_insert_ne by congruence; exact Hn1| | | | | | |]; cbn; auto.
      + intros d Hd. apply lookup_insert_is_Some'. right. eapply co_children; eauto.
      + intros d Hd. apply elem_of_app in Hd as [Hd|Hd].
        * destruct (co_mimic_children _ _ Hco _ _ _ Hn1 Hd) as (nd & E1 & E2 & E3).
          destruct (decide (d = nm)) as [->|Hdm].
          -- eexists. rewrite lookup_insert. split; [reflexivity|]. cbn. assert (nd = n1) as -> by congruence. auto.
          -- rewrite lookup_insert_ne by congruence. destruct (decide (d = na)) as [->|Hda].
             ++ eexists. rewrite lookup_insert. split; [reflexivity|]. cbn. eauto.
             ++ exists nd. rewrite lookup_insert_ne by congruence. auto.
        * apply elem_of_list_singleton in Hd as ->. rewrite lookup_insert_ne by congruence.
          eexists. rewrite lookup_insert. split; [reflexivity|]. cbn. eauto.
      + intros w Hw. apply lookup_insert_is_Some'. right. eapply co_parent; eauto.
      + intros w Hw. apply lookup_insert_is_Some'. right. eapply co_mimic_parent; eauto.
  Qed.
  Lemma cl_connect pub priv nodes news a na :
    copy_ok pub priv -> shared pub a -> Forall (fun b => is_Some (priv !! b)) news -> is_Some (priv !! na) ->
    cl pub priv (clone_connect nodes news (a, na)) (fun _ _ _ => True).
  Proof.
    intros Hco Ha Hnews Hna. unfold clone_connect. cbn [fst snd].
    eapply cl_bind; [apply (cl_weak pub priv a n_parent Hco Ha); intros; eapply ok_parent; eassumption|].
    intros pub1 priv1 op S1 Hco1 _ ->.
    eapply (cl_bind pub1 priv _ _ (fun _ _ _ => True)).
    { destruct op as [p|]; [|apply cl_ret; auto].
      eapply cl_bind; [apply (cl_expect _ _ _ _ (fun _ p' _ => p' = priv)); auto|]. intros pub2 priv2 i S2 Hco2 _ ->.
      eapply cl_bind; [apply (cl_expect _ _ _ _ (fun _ p' np => p' = priv /\ is_Some (priv !! np))); [assumption|]|].
      { intros np Hnp. split; [reflexivity|]. eapply Forall_lookup_1 in Hnews; eauto. }
      intros pub3 priv3 np S3 Hco3 _ [-> Hnp]. apply cl_set_parent; auto. }
    intros pub2 priv2 _ S2 Hco2 Hd2 _.
    assert (Ha2 : shared pub2 a) by (eapply shared_mono; [|exact Ha]; etrans; eauto).
    eapply cl_bind; [apply (cl_weak pub2 priv2 a n_mimic_parent Hco2 Ha2); intros; eapply ok_mimic_parent; eassumption|].
    intros pub3 priv3 om S3 Hco3 _ ->.
    destruct om as [mp|]; [|apply cl_ret; auto].
    eapply cl_bind; [apply (cl_expect _ _ _ _ (fun _ p' _ => p' = priv2)); auto|]. intros pub4 priv4 i S4 Hco4 _ ->.
    eapply cl_bind; [apply (cl_expect _ _ _ _ (fun _ p' nm => p' = priv2 /\ is_Some (priv2 !! nm))); [assumption|]|].
    { intros nm Hnm. split; [reflexivity|]. apply Hd2. eapply Forall_lookup_1 in Hnews; eauto. }
    intros pub5 priv5 nm S5 Hco5 _ [-> Hnm].
    cbn [bind lock get]. apply safe_section;
      [eapply shared_mono; [|exact Ha2]; etrans; [exact S3|]; etrans; [exact S4|exact S5]|intros; apply may_lock_empty|].
    intros pub6 n S6 Hok Hd6. rewrite insert_empty.
    destruct (n_mimic n) as [mi|]; cbn [expect bind]; [|apply s_panic].
    pose proof (copy_ok_pub _ _ _ Hd6 Hco5) as Hco6.
    destruct (Hd2 na Hna) as [nn Hnn].
    apply safe_bind. unfold node_set_mimic_parent. apply safe_bind.
    assert (Hin0 : refs_in priv2) by (eapply copy_ok_refs_in; eauto).
    eapply safe_modify_priv; [exact Hnn|set_solver|assumption|apply grows_mimic_parent; assumption|]. apply safe_bind.
    assert (Hin1 : refs_in (<[na := set_n_mimic_parent nn (Some nm)]> priv2))
      by (eapply refs_in_insert; [assumption|exact Hnn|apply grows_mimic_parent; assumption]).
    assert (Hn1 : is_Some (<[na := set_n_mimic_parent nn (Some nm)]> priv2 !! nm)) by (apply lookup_insert_is_Some'; auto).
    destruct Hn1 as [n1 Hn1].
    assert (Hg1 : grows_refs (<[na := set_n_mimic_parent nn (Some nm)]> priv2) n1
      (set_n_mimic_children n1 (n_mimic_children n1 ++ [na]))) by (apply grows_mimic_child; rewrite lookup_insert; eauto).
    eapply safe_modify_priv; [exact Hn1|set_solver|assumption|exact Hg1|].
    assert (Hn2 : is_Some (<[nm := set_n_mimic_children n1 (n_mimic_children n1 ++ [na])]>
      (<[na := set_n_mimic_parent nn (Some nm)]> priv2) !! na)).
    { apply lookup_insert_is_Some'. right. rewrite lookup_insert. eauto. }
    destruct Hn2 as [n2 Hn2].
    eapply safe_modify_priv; [exact Hn2|set_solver|eapply refs_in_insert; eauto|apply grows_same; reflexivity|].
    cbn [unlock]. apply s_unlock_pub; [rewrite lookup_singleton; eauto|]. rewrite delete_singleton. apply s_ret.
    split; [exact S6|]. split; [reflexivity|]. split; [reflexivity|]. split; [|split; [|exact I]].
    - eapply copy_ok_mimic; eauto.
    - intros b Hb. apply lookup_insert_is_Some'. right. apply lookup_insert_is_Some'. right.
      apply lookup_insert_is_Some'. auto.
  Qed.
  Lemma cl_connects nodes news : forall l pub priv, copy_ok pub priv ->
    Forall (fun b => is_Some (priv !! b)) news ->
    Forall (fun ab : nat * nat => shared pub (fst ab) /\ is_Some (priv !! snd ab)) l ->
    cl pub priv (forM_ (clone_connect nodes news) l) (fun _ _ _ => True).
  Proof.
    induction l as [|[a na] l IH]; intros pub priv Hco Hnews Hl; cbn [forM_]; [apply cl_ret; auto|].
    apply Forall_cons in Hl as [[Ha Hna] Hl]. cbn in Ha, Hna.
    eapply cl_bind; [apply cl_connect; eassumption|]. intros pub1 priv1 _ S1 Hco1 Hd1 _. apply IH.
    - assumption.
    - eapply Forall_impl; [exact Hnews|]. auto.
    - eapply Forall_impl; [exact Hl|]. intros [b nb] [H1 H2]. split; [eapply shared_mono; eauto|auto].
  Qed.
  Lemma tri_clone fuel pub c : can_clone -> chain_shared pub c -> tri m pub (chain_clone fuel c) chain_shared.
  Proof.
    intros Hcan Hc. unfold chain_clone. destruct Hc as [Hc _]. destruct (c_nodes c) as [|a0 l] eqn:El.
    { apply tri_ret. split; constructor. }
    eapply tri_bind; [apply tri_any; apply Forall_cons in Hc as [H _]; exact H|]. intros pub1 b S1 _.
    eapply tri_bind; [apply tri_assert|]. intros pub2 _ S2 _.
    assert (Hc2 : Forall (shared pub2) (a0 :: l)) by (eapply Forall_shared_mono; [|exact Hc]; etrans; eauto).
    assert (Hco2 : copy_ok pub2 ∅).
    { split; intros *; rewrite ?lookup_empty; try discriminate. intros []. discriminate. }
    apply safe_bind. eapply safe_mono; [|apply (cl_clone_nodes (a0 :: l) pub2 ∅ Hco2 Hc2)]. cbv beta.
    intros pub3 priv3 hp hv news (S3 & -> & -> & Hco3 & _ & Hnews).
    apply safe_bind. eapply safe_mono; [|apply (cl_connects (a0 :: l) news (zip (a0 :: l) news) pub3 priv3 Hco3 Hnews)].
    2:{ apply Forall_forall. intros [x y] H. apply elem_of_zip_with in H as (x' & y' & E & Hx & Hy).
        injection E as -> ->. cbn. split.
        - eapply (proj1 (Forall_forall _ _)) in Hc2; [|exact Hx]. eapply shared_mono; eauto.
        - exact (proj1 (Forall_forall _ _) Hnews y' Hy). }
    cbv beta. intros pub4 priv4 hp hv _ (S4 & -> & -> & Hco4 & Hd4 & _).
    set (flags := (fun n : node T => bool_decide (is_Some (n_mimic_parent n) /\ is_Some (n_mimic n))) <$> priv4).
    assert (Hfl : forall b, is_Some (flags !! b) <-> is_Some (priv4 !! b)).
    { intros x. unfold flags. rewrite lookup_fmap. destruct (priv4 !! x); cbn; split; intros []; eauto; discriminate. }
    assert (Hsh : forall b, is_Some (priv4 !! b) -> shared (pub4 ∪ flags) b).
    { intros x Hx. apply lookup_union_is_Some. right. apply Hfl. assumption. }
    apply (s_publish m _ _ _ _ _ flags); [reflexivity| | |].
    { unfold flags. apply dom_fmap_L. }
    { intros x n Hx. destruct (co_joint _ _ Hco4 _ _ Hx) as (y & n0 & He & Hj).
      destruct (Hcan y x n0 n He Hj) as [He' Hf']. split; [|assumption]. split.
      - intros d Hd. apply Hsh. eapply co_children; eauto.
      - intros d Hd. destruct (co_mimic_children _ _ Hco4 _ _ _ Hx Hd) as (nd & E1 & E2 & E3).
        split; [apply Hsh; eauto|]. intros _.
        rewrite lookup_union_r by (apply (co_disj _ _ Hco4); eauto).
        unfold flags. rewrite lookup_fmap, E1. cbn. rewrite bool_decide_eq_true_2 by auto. reflexivity.
      - unfold ref_ok. destruct (n_parent n) eqn:E; [|exact I]. left. apply Hsh. eapply co_parent; eauto.
      - unfold ref_ok. destruct (n_mimic_parent n) eqn:E; [|exact I]. left. apply Hsh. eapply co_mimic_parent; eauto.
      - intros _ Ht. rewrite lookup_union_r in Ht by (apply (co_disj _ _ Hco4); eauto).
        unfold flags in Ht. rewrite lookup_fmap, Hx in Ht. cbn in Ht. injection Ht as Ht.
        apply bool_decide_eq_true in Ht. assumption.
      - assumption. }
    assert (S5 : pub2 ⊆ pub4 ∪ flags).
    { etrans; [exact S3|]. etrans; [exact S4|]. apply map_union_subseteq_l. }
    assert (Hnews5 : Forall (shared (pub4 ∪ flags)) news).
    { eapply Forall_impl; [exact Hnews|]. auto. }
    eapply safe_mono; [|apply (tri_bind m (pub4 ∪ flags) (expect (head news) "index out of bounds")
      (fun na0 => b' <- node_is_root na0 ;; assert_ b' "assertion failed: new_nodes[0].is_root()" ;;; from_root fuel na0)
      (fun pub' na0 => shared pub' na0) chain_shared)].
    - cbn. intros pub6 priv6 hp hv x (S6 & H6). split; [etrans; eauto|assumption].
    - apply tri_expect. intros x Hx. destruct news as [|y news]; [discriminate|]. injection Hx as ->.
      apply Forall_cons in Hnews5 as [? _]. assumption.
    - intros pub6 na0 S6 Hna0. eapply tri_bind; [apply tri_any; exact Hna0|]. intros pub7 b' S7 _.
      eapply tri_bind; [apply tri_assert|]. intros pub8 _ S8 _. apply tri_from_root.
      eapply shared_mono; [|exact Hna0]. etrans; eauto.
  Qed.
End SafeChain.
