(** * Proofs about chain constructors, getters and setters *)
From Coq Require Import String NArith.
From stdpp Require Import gmap.
From Verif Require Import Scalar Geometry Joint Link Prog NodeM ChainM RunLemmas
  SpecJoint SpecNode JointProofs NodeProofs SpecGraph GraphProofs SpecChain.

Section ChainProofs.
  Context {T : Type} `{Sc : Scalar T}.
  Implicit Types (h : gmap nat (node T)).

  (** ** constructors *)
  Lemma run_from_nodes t h nx l :
    all_live h l ->
    exists c, run t (from_nodes l) (quiet h nx) = Done c (quiet h nx) /\ chain_of h l c.
  Proof.
    intros Hl. unfold from_nodes. eexists. split.
    - rewrite run_bind, (run_filterM_pure t _ (node_movable h)).
      + reflexivity.
      + intros a Ha. destruct (Hl a Ha) as [n Hn]. unfold quiet, node_movable.
        erewrite run_read; eauto. rewrite Hn. reflexivity.
    - repeat split.
  Qed.
  Lemma run_from_nodes_inv t h nx l c s :
    run t (from_nodes l) (quiet h nx) = Done c s ->
    s = quiet h nx /\ chain_of h l c /\ all_live h l.
  Proof.
    intros H. assert (Hl : all_live h l).
    { unfold from_nodes in H. apply run_bind_inv in H as (m & s1 & H & _).
      revert m s1 H. induction l as [|a l IH]; intros m s1 H; [intros a Ha; set_solver|].
      cbn [filterM] in H. apply run_bind_inv in H as (b & s2 & H1 & H2).
      destruct (h !! a) as [n|] eqn:Hn; [|unfold read in H1; cbn [run heap quiet] in H1; rewrite Hn in H1; discriminate].
      unfold quiet in H1. erewrite run_read in H1 by (eauto using lookup_empty). injection H1 as <- <-.
      apply run_bind_inv in H2 as (m' & s3 & H2 & _). apply IH in H2.
      intros x Hx. apply elem_of_cons in Hx as [->|Hx]; eauto. }
    destruct (run_from_nodes t h nx l Hl) as (c' & Hr & Hc). rewrite Hr in H. injection H as <- <-. auto.
  Qed.

  Lemma path_all_live h a l : path_up h a l -> all_live h l.
  Proof.
    induction 1 as [a H|a p l H H1 IH]; intros b Hb.
    - assert (b = a) as -> by set_solver. apply H.
    - apply elem_of_cons in Hb as [->|Hb]; [|auto]. destruct H as [(n & Hn & _) _]. eauto.
  Qed.
  Lemma all_live_rev h l : all_live h l -> all_live h (rev l).
  Proof. intros H a Ha. apply H. rewrite elem_of_list_In in *. apply in_rev. assumption. Qed.
  Lemma tree_all_live h tr : tree_in h tr -> all_live h (preorder_last tr).
  Proof.
    induction tr as [a cs IH] using tree_ind'. intros Ht.
    inversion Ht as [a' n cs' Hn Hch Hcs]; subst. cbn [preorder_last]. intros b Hb.
    apply elem_of_cons in Hb as [->|Hb]; [eauto|].
    apply elem_of_list_In, in_concat in Hb as (l & Hl & Hb).
    apply in_rev, in_map_iff in Hl as (t & <- & Hin). apply elem_of_list_In in Hin, Hb.
    rewrite Forall_forall in IH, Hcs. apply (IH t Hin (Hcs t Hin)). assumption.
  Qed.

  Lemma run_from_root t h nx tr fuel :
    tree_in h tr -> tsize tr < fuel ->
    exists c, run t (from_root fuel (troot tr)) (quiet h nx) = Done c (quiet h nx) /\
      chain_of h (preorder_last tr) c.
  Proof.
    intros Ht Hf. unfold from_root. rewrite run_bind, run_descendants_lemma by assumption. cbn [obind].
    apply run_from_nodes. apply tree_all_live. assumption.
  Qed.
  Lemma run_from_end t h nx e l fuel :
    path_up h e l -> length l < fuel ->
    exists c, run t (from_end fuel e) (quiet h nx) = Done c (quiet h nx) /\ chain_of h (rev l) c.
  Proof.
    intros Hp Hf. unfold from_end. rewrite run_bind.
    destruct (run_ancestors_lemma t h nx e l Hp) as (_ & _ & Hr). rewrite Hr by assumption. cbn [obind].
    apply run_from_nodes. apply all_live_rev. eapply path_all_live; eauto.
  Qed.
  (** the part of the path that [from_end_to_root] takes *)
  Fixpoint upto (r : nat) (l : list nat) : list nat :=
    match l with [] => [] | a :: l => if decide (a = r) then [a] else a :: upto r l end.
  Lemma upto_found r l1 l2 : r ∉ l1 -> upto r (l1 ++ r :: l2) = l1 ++ [r].
  Proof.
    induction l1 as [|a l1 IH]; intros Hr; cbn.
    - rewrite decide_True; reflexivity.
    - rewrite decide_False by set_solver. f_equal. apply IH. set_solver.
  Qed.
  Lemma upto_none r l : r ∉ l -> upto r l = l.
  Proof.
    induction l as [|a l IH]; intros Hr; cbn; [reflexivity|].
    rewrite decide_False by set_solver. f_equal. apply IH. set_solver.
  Qed.
  Lemma upto_sub r l a : a ∈ upto r l -> a ∈ l.
  Proof.
    induction l as [|b l IH]; cbn; [auto|]. destruct (decide (b = r)); set_solver.
  Qed.
  Lemma run_ancestors_until t h nx r e l :
    path_up h e l -> forall fuel, length l < fuel ->
    run t (ancestors_until fuel (Some e) r) (quiet h nx) = Done (upto r l) (quiet h nx).
  Proof.
    induction 1 as [a H|a p l H H1 IH]; intros fuel Hf; (destruct fuel as [|fuel]; [cbn in Hf; lia|]);
      cbn [ancestors_until ancestors_next length upto] in *.
    - rewrite run_bind, run_bind, run_parent_none by assumption. cbn [obind run].
      destruct (decide (a = r)); [reflexivity|]. destruct fuel as [|fuel]; [lia|].
      rewrite run_bind. cbn [ancestors_until ancestors_next bind run obind]. reflexivity.
    - rewrite run_bind, run_bind, (run_parent_some _ _ _ _ p) by assumption. cbn [obind run].
      destruct (decide (a = r)); [reflexivity|]. rewrite run_bind, IH by lia. reflexivity.
  Qed.
  Lemma run_from_end_to_root t h nx e r l fuel :
    path_up h e l -> length l < fuel ->
    exists c, run t (from_end_to_root fuel e r) (quiet h nx) = Done c (quiet h nx) /\
      (forall l1 l2, l = l1 ++ r :: l2 -> chain_of h (rev (l1 ++ [r])) c) /\
      (r ∉ l -> chain_of h (rev l) c).
  Proof.
    intros Hp Hf. unfold from_end_to_root. rewrite run_bind, (run_ancestors_until t h nx r e l) by assumption.
    cbn [obind]. destruct (run_from_nodes t h nx (rev (upto r l))) as (c & Hr & Hc).
    { intros a Ha. apply (path_all_live h e l Hp). apply (upto_sub r).
      rewrite elem_of_list_In in *. apply in_rev. assumption. }
    exists c. split; [assumption|]. split.
    - intros l1 l2 ->. rewrite upto_found in Hc; [assumption|].
      pose proof (path_up_nodup _ _ _ Hp) as Hnd. apply NoDup_app in Hnd as (_ & Hd & _).
      intros Hin. apply (Hd r Hin). set_solver.
    - intros Hr2. rewrite upto_none in Hc; assumption.
  Qed.

  (** ** getters *)
  Definition joint_at h (a : nat) : option (joint T) := n_joint <$> h !! a.
  Lemma run_iter_joints t h nx c {A} (f : joint T -> prog T A) (g : joint T -> A) :
    (forall a, a ∈ c_movable c -> exists n, h !! a = Some n /\
       forall s, run t (f (n_joint n)) s = Done (g (n_joint n)) s) ->
    exists l, run t (iter_joints c f) (quiet h nx) = Done l (quiet h nx) /\
      map Some l = map (fun a => g <$> joint_at h a) (c_movable c).
  Proof.
    intros H. unfold iter_joints. revert H.
    induction (c_movable c) as [|a l IH]; intros H; [exists []; auto|].
    destruct (H a) as (n & Hn & Hf); [set_solver|].
    destruct IH as (ys & Hr & Hys); [intros; apply H; set_solver|].
    exists (g (n_joint n) :: ys). split.
    - rewrite run_mapM_cons. unfold quiet in *. erewrite run_lock_bind by (eauto using lookup_empty).
      erewrite run_get_bind by (eauto; apply lookup_insert).
      rewrite run_bind, Hf. cbn [obind]. rewrite run_unlock_bind by apply lookup_insert.
      rewrite delete_insert by apply lookup_empty. cbn [run obind]. rewrite Hr. reflexivity.
    - cbn [map]. rewrite Hys. unfold joint_at at 2. rewrite Hn. reflexivity.
  Qed.

  Lemma run_iter_joints_ret t h nx c {A} (g : joint T -> A) :
    all_live h (c_movable c) ->
    exists l, run t (iter_joints c (fun j => Ret (g j))) (quiet h nx) = Done l (quiet h nx) /\
      map Some l = map (fun a => g <$> (n_joint <$> h !! a)) (c_movable c).
  Proof.
    intros Hl. apply (run_iter_joints t h nx c (fun j => Ret (g j)) g).
    intros a Ha. destruct (Hl a Ha) as [n Hn]. exists n. split; [assumption|]. reflexivity.
  Qed.

  Lemma types_kept_movable h h' a : types_kept h h' -> node_movable h a = true ->
    exists n', h' !! a = Some n' /\ j_type (n_joint n') <> Fixed.
  Proof.
    intros Hk. unfold node_movable. destruct (h !! a) as [n|] eqn:E; [|discriminate].
    destruct (Hk a n E) as (n' & E' & Ht). intros Hm. exists n'. split; [assumption|].
    rewrite Ht. destruct (j_type (n_joint n)); congruence.
  Qed.
  Lemma run_joint_positions t h0 h nx c l :
    chain_of h0 l c -> types_kept h0 h ->
    exists ps, run t (joint_positions c) (quiet h nx) = Done ps (quiet h nx) /\
      length ps = c_dof c /\ map Some ps = map (position_at h) (c_movable c).
  Proof.
    intros (Hn & Hm & Hd) Hk. unfold joint_positions.
    assert (Hmov : forall a, a ∈ c_movable c -> exists n, h !! a = Some n /\ j_type (n_joint n) <> Fixed).
    { intros a Ha. rewrite Hm in Ha. apply elem_of_list_In, filter_In in Ha as [_ Ha].
      eapply types_kept_movable; eauto. }
    destruct (run_iter_joints t h nx c (fun j => expect (joint_position j)
        "Must be a bug: movable joint must have position") (fun j => j_position j)) as (ps & Hr & Hps).
    { intros a Ha. destruct (Hmov a Ha) as (n & Hn' & Ht). exists n. split; [assumption|].
      intros s. unfold joint_position. destruct (j_type (n_joint n)); [congruence|reflexivity|reflexivity]. }
    exists ps. split; [exact Hr|]. split.
    - rewrite Hd, <- Hm. rewrite <- (map_length Some ps), Hps, map_length. reflexivity.
    - rewrite Hps. apply map_ext_in. intros a Ha. apply elem_of_list_In in Ha.
      destruct (Hmov a Ha) as (n & Hn' & _). unfold joint_at, position_at. rewrite Hn'. reflexivity.
  Qed.

  (** ** find *)
  Lemma find_split {A} (g : A -> bool) l :
    match List.find g l with
    | Some a => exists l1 l2, l = l1 ++ a :: l2 /\ g a = true /\ forall b, b ∈ l1 -> g b = false
    | None => forall b, b ∈ l -> g b = false
    end.
  Proof.
    induction l as [|x l IH]; cbn; [intros b Hb; set_solver|].
    destruct (g x) eqn:E.
    - exists [], l. split; [reflexivity|]. split; [assumption|]. intros b Hb. set_solver.
    - destruct (List.find g l) as [a|].
      + destruct IH as (l1 & l2 & -> & Ha & Hb). exists (x :: l1), l2. split; [reflexivity|].
        split; [assumption|]. intros b Hin. apply elem_of_cons in Hin as [->|Hin]; auto.
      + intros b Hin. apply elem_of_cons in Hin as [->|Hin]; auto.
  Qed.
  Definition has_nameb h (name : string) (a : nat) : bool :=
    match h !! a with Some n => String.eqb (j_name (n_joint n)) name | None => false end.
  Lemma has_nameb_iff h name a : has_nameb h name a = true <-> name_at h a name.
  Proof.
    unfold has_nameb, name_at. destruct (h !! a) as [n|].
    - rewrite String.eqb_eq. split; [eauto|]. intros (n' & E & H). congruence.
    - split; [discriminate|]. intros (n' & E & H). congruence.
  Qed.
  Lemma run_find t h nx c name :
    all_live h (c_nodes c) ->
    exists o, run t (chain_find c name) (quiet h nx) = Done o (quiet h nx) /\
      match o with
      | Some a => exists l1 l2, c_nodes c = l1 ++ a :: l2 /\ name_at h a name /\
                    forall b, b ∈ l1 -> ~ name_at h b name
      | None => forall b, b ∈ c_nodes c -> ~ name_at h b name
      end.
  Proof.
    intros Hl. unfold chain_find. exists (List.find (has_nameb h name) (c_nodes c)). split.
    - apply run_findM_pure. intros a Ha. destruct (Hl a Ha) as [n Hn].
      unfold quiet, has_nameb. erewrite run_read; eauto. rewrite Hn. reflexivity.
    - pose proof (find_split (has_nameb h name) (c_nodes c)) as H.
      destruct (List.find _ _) as [a|].
      + destruct H as (l1 & l2 & H1 & H2 & H3). exists l1, l2. split; [assumption|].
        split; [apply has_nameb_iff; assumption|].
        intros b Hb Hn. apply has_nameb_iff in Hn. rewrite H3 in Hn; [discriminate|assumption].
      + intros b Hb Hn. apply has_nameb_iff in Hn. rewrite H in Hn; [discriminate|assumption].
  Qed.
  Lemma run_position t h nx name l :
    all_live h l ->
    exists o, run t (positionM (fun a => read a (fun n : node T => String.eqb (j_name (n_joint n)) name)) l)
                (quiet h nx) = Done o (quiet h nx) /\
      match o with
      | Some i => exists l1 a l2, l = l1 ++ a :: l2 /\ i = length l1 /\ name_at h a name /\
                    forall b, b ∈ l1 -> ~ name_at h b name
      | None => forall b, b ∈ l -> ~ name_at h b name
      end.
  Proof.
    induction l as [|x l IH]; intros Hl; cbn [positionM].
    { exists None. split; [reflexivity|]. intros b Hb. set_solver. }
    destruct (Hl x) as [n Hn]; [set_solver|].
    unfold quiet. erewrite run_bind_done by (eapply run_read; eauto using lookup_empty).
    destruct (String.eqb (j_name (n_joint n)) name) eqn:E.
    - exists (Some 0). split; [reflexivity|]. exists [], x, l. split; [reflexivity|].
      split; [reflexivity|]. apply String.eqb_eq in E. split; [exists n; auto|]. intros b Hb. set_solver.
    - destruct IH as (o & Hr & Ho); [intros a Ha; apply Hl; set_solver|].
      exists (S <$> o). split; [rewrite run_bind; unfold quiet in Hr; rewrite Hr; reflexivity|].
      assert (Hx : ~ name_at h x name).
      { intros Hx. apply has_nameb_iff in Hx. unfold has_nameb in Hx. rewrite Hn in Hx. congruence. }
      destruct o as [i|]; cbn.
      + destruct Ho as (l1 & a & l2 & -> & -> & Ha & Hb). exists (x :: l1), a, l2.
        repeat (split; [reflexivity || assumption|]). intros b Hin.
        apply elem_of_cons in Hin as [->|Hin]; auto.
      + intros b Hin. apply elem_of_cons in Hin as [->|Hin]; auto.
  Qed.

  (** ** setters *)
  Definition move1 (p : T) (n : node T) : node T := set_n_joint n (joint_set_unchecked (n_joint n) p).
  Lemma node_moved_move1 n p : node_moved n p (move1 p n).
  Proof. apply node_moved_eq. reflexivity. Qed.
  Lemma run_set_plain t h nx a n p :
    h !! a = Some n -> no_mimic n ->
    (admissible (n_joint n) p /\
     run t (node_set_joint_position a p) (quiet h nx) = Done (Ok tt) (quiet (<[a := move1 p n]> h) nx)) \/
    (exists e, ~ admissible (n_joint n) p /\ snd (joint_set (n_joint n) p) = Err e /\
     run t (node_set_joint_position a p) (quiet h nx) = Done (Err e) (quiet h nx)).
  Proof.
    intros Hn (Hmp & Hmc). unfold node_set_joint_position, quiet.
    erewrite run_lock_bind by (eauto using lookup_empty).
    erewrite run_get_bind by (eauto; apply lookup_insert). rewrite Hmp.
    assert (Hcase : (admissible (n_joint n) p /\ joint_set (n_joint n) p = (joint_set_unchecked (n_joint n) p, Ok tt)) \/
      (~ admissible (n_joint n) p /\ exists e, joint_set (n_joint n) p = (n_joint n, Err e))).
    { pose proof (joint_set_ok_iff (n_joint n) p) as Hok.
      destruct (joint_set_cases (n_joint n) p) as [[Ha E]|[[Ha E]|[Hm (r & Hr & Hv & E)]]];
        [left; auto|right|right]; rewrite E in *; cbn in Hok; (split; [intros H; apply Hok in H; discriminate|eauto]). }
    destruct Hcase as [[Ha E]|[Ha [e E]]].
    - left. split; [assumption|]. rewrite E. cbn [fst snd].
      rewrite run_put_bind by apply lookup_insert. rewrite Hmc. cbn [mimic_loop].
      rewrite run_bind. cbn [run obind]. rewrite run_unlock_bind by apply lookup_insert.
      rewrite delete_insert by apply lookup_empty. cbn [run]. reflexivity.
    - right. exists e. split; [assumption|]. rewrite E. split; [reflexivity|]. cbn [fst snd].
      rewrite run_put_bind by apply lookup_insert.
      rewrite run_unlock_bind by apply lookup_insert.
      rewrite delete_insert by apply lookup_empty. cbn [run].
      replace (set_n_joint n (n_joint n)) with n by (destruct n; reflexivity).
      rewrite insert_id by assumption. reflexivity.
  Qed.

  (** positionwise updates of a heap *)
  Definition upd_all (F : T -> node T -> node T) h (l : list (nat * T)) : gmap nat (node T) :=
    foldl (fun h ap => alter (F (snd ap)) (fst ap) h) h l.
  Lemma upd_all_cons F h a p l : upd_all F h ((a, p) :: l) = upd_all F (alter (F p) a h) l.
  Proof. reflexivity. Qed.
  Lemma upd_all_other F l : forall h b, b ∉ map fst l -> upd_all F h l !! b = h !! b.
  Proof.
    induction l as [|[a p] l IH]; intros h b Hb; [reflexivity|].
    rewrite upd_all_cons. cbn in Hb. rewrite IH by set_solver. apply lookup_alter_ne. set_solver.
  Qed.
  Lemma upd_all_at F l : forall h a p, NoDup (map fst l) -> (a, p) ∈ l ->
    upd_all F h l !! a = F p <$> h !! a.
  Proof.
    induction l as [|[b q] l IH]; intros h a p Hnd Hin; [set_solver|].
    cbn in Hnd. apply NoDup_cons in Hnd as [Hb Hnd]. rewrite upd_all_cons.
    apply elem_of_cons in Hin as [E|Hin].
    - injection E as -> ->. rewrite upd_all_other by assumption. apply lookup_alter.
    - rewrite (IH _ a p) by assumption.
      rewrite lookup_alter_ne; [reflexivity|]. intros ->. apply Hb.
      apply elem_of_list_In, in_map_iff. exists (a, p). split; [reflexivity|]. apply elem_of_list_In. assumption.
  Qed.
  Lemma upd_all_dom F l : forall h a, is_Some (upd_all F h l !! a) <-> is_Some (h !! a).
  Proof.
    induction l as [|[b q] l IH]; intros h a; [reflexivity|].
    rewrite upd_all_cons, IH. apply lookup_alter_is_Some.
  Qed.

  Lemma zip_fst {A B} (l1 : list A) (l2 : list B) : map fst (zip l1 l2) = take (length l2) l1.
  Proof. revert l2. induction l1 as [|x l1 IH]; intros [|y l2]; cbn; f_equal; auto. Qed.
  Lemma zip_lookup {A B} (l1 : list A) (l2 : list B) i a b :
    l1 !! i = Some a -> l2 !! i = Some b -> (a, b) ∈ zip l1 l2.
  Proof.
    intros H1 H2. apply elem_of_list_lookup. exists i. apply lookup_zip_with_Some. eauto.
  Qed.
  Lemma NoDup_take {A} (l : list A) k : NoDup l -> NoDup (take k l).
  Proof. intros H. rewrite <- (take_drop k l) in H. apply NoDup_app in H as [H _]. assumption. Qed.

  Lemma alter_insert h a n (F : node T -> node T) : h !! a = Some n -> alter F a h = <[a := F n]> h.
  Proof.
    intros Hn. apply map_eq. intros b. destruct (decide (b = a)) as [->|Hb].
    - rewrite lookup_alter, lookup_insert, Hn. reflexivity.
    - rewrite lookup_alter_ne, lookup_insert_ne by auto. reflexivity.
  Qed.

  Lemma run_set_list t nx l : forall h,
    NoDup (map fst l) ->
    (forall a, a ∈ map fst l -> exists n, h !! a = Some n /\ no_mimic n) ->
    (Forall (fun ap => admissible_at h (fst ap) (snd ap)) l /\
     run t (forM_try (fun ap => node_set_joint_position (fst ap) (snd ap)) l) (quiet h nx)
     = Done (Ok tt) (quiet (upd_all move1 h l) nx)) \/
    (exists l1 a p l2 n e, l = l1 ++ (a, p) :: l2 /\
     Forall (fun ap => admissible_at h (fst ap) (snd ap)) l1 /\
     h !! a = Some n /\ ~ admissible (n_joint n) p /\ snd (joint_set (n_joint n) p) = Err e /\
     run t (forM_try (fun ap => node_set_joint_position (fst ap) (snd ap)) l) (quiet h nx)
     = Done (Err e) (quiet (upd_all move1 h l1) nx)).
  Proof.
    induction l as [|[a p] l IH]; intros h Hnd Hpl; [left; split; [constructor|reflexivity]|].
    cbn in Hnd. apply NoDup_cons in Hnd as [Ha Hnd].
    destruct (Hpl a) as (n & Hn & Hnm); [cbn; set_solver|].
    cbn [forM_try fst snd].
    assert (Hrest : forall b q, b ∈ map fst l -> (admissible_at (alter (move1 p) a h) b q <-> admissible_at h b q)).
    { intros b q Hb. unfold admissible_at. rewrite lookup_alter_ne; [reflexivity|]. intros ->. contradiction. }
    assert (Hin : forall l' : list (nat * T), (forall x, x ∈ l' -> x ∈ l) ->
        Forall (fun ap => admissible_at (alter (move1 p) a h) (fst ap) (snd ap)) l' ->
        Forall (fun ap => admissible_at h (fst ap) (snd ap)) l').
    { intros l' Hsub. rewrite !Forall_forall. intros H x Hx. apply Hrest; auto.
      apply elem_of_list_In, in_map_iff. exists x. split; [reflexivity|]. apply elem_of_list_In. auto. }
    destruct (run_set_plain t h nx a n p Hn Hnm) as [[Had Hr]|(e & Had & He & Hr)].
    - rewrite <- (alter_insert h a n) in Hr by assumption.
      destruct (IH (alter (move1 p) a h) Hnd) as [[Hall Hr2]|(l1 & b & q & l2 & nb & e & -> & Hall & Hb & Hnb & He & Hr2)].
      { intros b Hb. rewrite lookup_alter_ne by (intros ->; contradiction). apply Hpl. cbn. set_solver. }
      + left. split; [constructor; [exists n; auto|apply Hin; auto]|].
        rewrite run_bind, Hr. cbn [obind]. rewrite Hr2. reflexivity.
      + right. exists ((a, p) :: l1), b, q, l2, nb, e. split; [reflexivity|].
        split; [constructor; [exists n; auto|apply Hin; [set_solver|assumption]]|].
        split; [|split; [assumption|split; [assumption|]]].
        * rewrite lookup_alter_ne in Hb; [assumption|]. intros ->. apply Ha. rewrite map_app. cbn. set_solver.
        * rewrite run_bind, Hr. cbn [obind]. rewrite Hr2. reflexivity.
    - right. exists [], a, p, l, n, e. split; [reflexivity|]. split; [constructor|].
      repeat (split; [assumption|]). rewrite run_bind, Hr. reflexivity.
  Qed.

  Lemma run_clamped_list t nx l : forall h,
    (forall a, a ∈ map fst l -> is_Some (h !! a)) ->
    run t (forM_ (fun ap => node_set_joint_position_clamped (fst ap) (snd ap)) l) (quiet h nx)
    = Done tt (quiet (upd_all (fun p n => set_n_joint n (joint_set_clamped (n_joint n) p)) h l) nx).
  Proof.
    induction l as [|[a p] l IH]; intros h Hl; [reflexivity|].
    destruct (Hl a) as [n Hn]; [cbn; set_solver|].
    rewrite run_forM__cons. cbn [fst snd]. rewrite (run_set_clamped _ _ _ _ _ n) by assumption. cbn [obind].
    rewrite <- (alter_insert h a n (fun n => set_n_joint n (joint_set_clamped (n_joint n) p))) by assumption.
    apply IH. intros b Hb. apply lookup_alter_is_Some. apply Hl. cbn. set_solver.
  Qed.
  Lemma run_unchecked_list t nx l : forall h,
    (forall a, a ∈ map fst l -> is_Some (h !! a)) ->
    run t (forM_ (fun ap => node_set_joint_position_unchecked (fst ap) (snd ap)) l) (quiet h nx)
    = Done tt (quiet (upd_all move1 h l) nx).
  Proof.
    induction l as [|[a p] l IH]; intros h Hl; [reflexivity|].
    destruct (Hl a) as [n Hn]; [cbn; set_solver|].
    rewrite run_forM__cons. cbn [fst snd]. rewrite (run_set_unchecked _ _ _ _ _ n) by assumption. cbn [obind].
    rewrite <- (alter_insert h a n (fun n => set_n_joint n (joint_set_unchecked (n_joint n) p))) by assumption.
    rewrite upd_all_cons.
    apply IH. intros b Hb. apply lookup_alter_is_Some. apply Hl. cbn. set_solver.
  Qed.

  Lemma moved_all h (l : list nat) (ps : list T) h' :
    NoDup l -> (forall a, a ∈ l -> is_Some (h !! a)) -> h' = upd_all move1 h (zip l ps) ->
    (forall i a p, l !! i = Some a -> ps !! i = Some p -> moved_at h h' a p) /\
    (forall b, b ∉ take (length ps) l -> h' !! b = h !! b).
  Proof.
    intros Hnd Hl ->. split.
    - intros i a p Ha Hp. destruct (Hl a) as [n Hn]; [eapply elem_of_list_lookup_2; eauto|].
      exists n, (move1 p n). split; [assumption|]. split; [|apply node_moved_move1].
      rewrite (upd_all_at move1 _ _ a p); [rewrite Hn; reflexivity| |eapply zip_lookup; eauto].
      rewrite zip_fst. apply NoDup_take. assumption.
    - intros b Hb. apply upd_all_other. rewrite zip_fst. assumption.
  Qed.

  (** C15 *)
  Lemma set_positions_roundtrip_lemma t h nx c ps :
    chain_of h (c_nodes c) c -> plain h (c_movable c) -> length ps = c_dof c ->
    (forall i a p, c_movable c !! i = Some a -> ps !! i = Some p -> admissible_at h a p) ->
    exists h', run t (set_joint_positions c ps) (quiet h nx) = Done (Ok tt) (quiet h' nx) /\
      run t (joint_positions c) (quiet h' nx) = Done ps (quiet h' nx) /\
      (forall i a p, c_movable c !! i = Some a -> ps !! i = Some p -> moved_at h h' a p) /\
      (forall b, b ∉ c_movable c -> h' !! b = h !! b).
  Proof.
    intros Hc [Hnd Hpl] Hlen Hadm. pose proof Hc as (_ & Hm & Hd).
    set (h' := upd_all move1 h (zip (c_movable c) ps)).
    assert (Hlive : forall a, a ∈ c_movable c -> is_Some (h !! a)).
    { intros a Ha. destruct (Hpl a Ha) as (n & Hn & _). eauto. }
    destruct (moved_all h (c_movable c) ps h' Hnd Hlive eq_refl) as [Hmv Hfr].
    assert (Hlen' : length ps = length (c_movable c)) by (rewrite Hm; congruence).
    assert (Hrun : run t (set_joint_positions c ps) (quiet h nx) = Done (Ok tt) (quiet h' nx)).
    { unfold set_joint_positions. rewrite decide_True by assumption.
      destruct (run_set_list t nx (zip (c_movable c) ps) h) as [[_ Hr]|(l1 & a & p & l2 & n & e & E & _ & Hn & Hna & _)].
      - rewrite zip_fst. apply NoDup_take. assumption.
      - intros a Ha. rewrite zip_fst in Ha. apply Hpl. eapply elem_of_take in Ha as (i & Hi & _).
        eapply elem_of_list_lookup_2; eauto.
      - exact Hr.
      - exfalso. assert (zip (c_movable c) ps !! (length l1) = Some (a, p)) as Hz.
        { rewrite E, lookup_app_r by lia. rewrite Nat.sub_diag. reflexivity. }
        apply lookup_zip_with_Some in Hz as (x & y & Exy & Hx & Hy). injection Exy as -> ->.
        destruct (Hadm _ _ _ Hx Hy) as (n' & Hn' & Ha). apply Hna. congruence. }
    exists h'. split; [assumption|]. split; [|split; [assumption|]].
    - assert (Hk : types_kept h h').
      { intros a n Hn. destruct (decide (a ∈ c_movable c)) as [Hin|Hout].
        - apply elem_of_list_lookup in Hin as [i Hi].
          destruct (lookup_lt_is_Some_2 ps i) as [p Hp].
          { rewrite Hlen'. eapply lookup_lt_Some; eauto. }
          destruct (Hmv i a p Hi Hp) as (n0 & n' & E & E' & Hmoved). exists n'. split; [assumption|].
          assert (n0 = n) as -> by congruence. apply Hmoved.
        - exists n. split; [|reflexivity]. rewrite Hfr; [assumption|].
          intros Hin. apply Hout. eapply elem_of_take in Hin as (i & Hi & _).
          eapply elem_of_list_lookup_2; eauto. }
      destruct (run_joint_positions t h h' nx c _ Hc Hk) as (ps' & Hr & Hl & Hps). rewrite Hr. f_equal.
      apply list_eq. intros i. pose proof (f_equal (fun l => l !! i) Hps) as Hi. cbn in Hi.
      assert (L1 : map Some ps' !! i = Some <$> ps' !! i) by apply list_lookup_fmap.
      assert (L2 : map (position_at h') (c_movable c) !! i = position_at h' <$> c_movable c !! i) by apply list_lookup_fmap.
      rewrite L1, L2 in Hi. destruct (c_movable c !! i) as [a|] eqn:Ea.
      + destruct (lookup_lt_is_Some_2 ps i) as [p Hp].
        { rewrite Hlen'. eapply lookup_lt_Some; eauto. }
        destruct (Hmv i a p Ea Hp) as (n0 & n' & E & E' & Hmoved).
        destruct (ps' !! i) as [q|]; [|discriminate]. cbn in Hi. unfold position_at in Hi. rewrite E' in Hi.
        injection Hi as ->. destruct Hmoved as ((Hpos & _) & _). rewrite Hpos, Hp. reflexivity.
      + destruct (ps' !! i); [discriminate|]. symmetry. apply lookup_ge_None.
        apply lookup_ge_None in Ea. lia.
    - intros b Hb. apply Hfr. intros Hin. apply Hb. eapply elem_of_take in Hin as (i & Hi & _).
      eapply elem_of_list_lookup_2; eauto.
  Qed.
  Lemma set_positions_mismatch_lemma t h nx c (ps : list T) :
    length ps <> c_dof c ->
    run t (set_joint_positions c ps) (quiet h nx)
    = Done (Err (SizeMismatchError (length ps) (c_dof c))) (quiet h nx).
  Proof. intros H. unfold set_joint_positions. rewrite decide_False by assumption. reflexivity. Qed.

  (** C16 *)
  Lemma set_positions_prefix_lemma t h nx c ps i a n p :
    chain_of h (c_nodes c) c -> plain h (c_movable c) -> length ps = c_dof c ->
    c_movable c !! i = Some a -> ps !! i = Some p -> h !! a = Some n -> ~ admissible (n_joint n) p ->
    (forall j b q, j < i -> c_movable c !! j = Some b -> ps !! j = Some q -> admissible_at h b q) ->
    exists h' e, run t (set_joint_positions c ps) (quiet h nx) = Done (Err e) (quiet h' nx) /\
      snd (joint_set (n_joint n) p) = Err e /\
      (forall j b q, j < i -> c_movable c !! j = Some b -> ps !! j = Some q -> moved_at h h' b q) /\
      (forall b, (forall j, j < i -> c_movable c !! j <> Some b) -> h' !! b = h !! b).
  Proof.
    intros Hc [Hnd Hpl] Hlen Ha Hp Hn Hna Hadm.
    assert (Hsub : forall b, b ∈ map fst (zip (c_movable c) ps) -> b ∈ c_movable c).
    { intros b Hb. rewrite zip_fst in Hb. eapply elem_of_take in Hb as (k & Hk & _).
      eapply elem_of_list_lookup_2; eauto. }
    destruct (run_set_list t nx (zip (c_movable c) ps) h)
      as [[Hall _]|(l1 & b & q & l2 & nb & e & E & Hall & Hb & Hnb & He & Hr)].
    - rewrite zip_fst. apply NoDup_take. assumption.
    - intros b Hb. apply Hpl. auto.
    - exfalso. rewrite Forall_forall in Hall. destruct (Hall (a, p)) as (n' & Hn' & Had).
      { eapply zip_lookup; eauto. } apply Hna. cbn in *. congruence.
    - assert (Hz : zip (c_movable c) ps !! (length l1) = Some (b, q)).
      { rewrite E, lookup_app_r by lia. rewrite Nat.sub_diag. reflexivity. }
      apply lookup_zip_with_Some in Hz as (x & y & Exy & Hx & Hy). injection Exy as <- <-.
      assert (length l1 = i) as Hi.
      { destruct (lt_eq_lt_dec (length l1) i) as [[Hlt|Heq]|Hgt]; [|assumption|].
        - destruct (Hadm _ _ _ Hlt Hx Hy) as (n' & Hn' & Had). exfalso. apply Hnb. congruence.
        - exfalso. assert (zip (c_movable c) ps !! i = Some (a, p)) as Hz.
          { apply lookup_zip_with_Some. eauto. }
          rewrite E, lookup_app_l in Hz by assumption.
          rewrite Forall_forall in Hall. destruct (Hall (a, p)) as (n' & Hn' & Had).
          { eapply elem_of_list_lookup_2; eauto. } apply Hna. cbn in *. congruence. }
      assert (b = a) as -> by congruence. assert (q = p) as -> by congruence.
      assert (nb = n) as -> by congruence.
      exists (upd_all move1 h l1), e. split.
      { unfold set_joint_positions. rewrite decide_True by assumption. exact Hr. }
      split; [assumption|].
      assert (Hnd1 : NoDup (map fst l1)).
      { assert (NoDup (map fst (zip (c_movable c) ps))) as H by (rewrite zip_fst; apply NoDup_take; assumption).
        rewrite E, map_app in H. apply NoDup_app in H as [H _]. assumption. }
      split.
      + intros j b' q' Hj Hb' Hq'. assert (Hin : (b', q') ∈ l1).
        { apply elem_of_list_lookup. exists j.
          assert (zip (c_movable c) ps !! j = Some (b', q')) as Hz by (apply lookup_zip_with_Some; eauto).
          rewrite E, lookup_app_l in Hz by lia. assumption. }
        destruct (Hpl b') as (n' & Hn' & _); [eapply elem_of_list_lookup_2; eauto|].
        exists n', (move1 q' n'). split; [assumption|]. split; [|apply node_moved_move1].
        rewrite (upd_all_at _ _ _ b' q') by assumption. rewrite Hn'. reflexivity.
      + intros b' Hb'. apply upd_all_other. intros Hin. apply elem_of_list_lookup in Hin as [j Hj].
        assert (Hjl : j < i) by (apply lookup_lt_Some in Hj; rewrite map_length in Hj; lia).
        apply (Hb' j Hjl).
        assert (map fst (zip (c_movable c) ps) !! j = Some b') as Hz.
        { rewrite E, map_app, lookup_app_l; [assumption|]. rewrite map_length. lia. }
        rewrite zip_fst in Hz. apply lookup_take_Some in Hz as [Hz _]. assumption.
  Qed.

  (** C17 *)
  Lemma set_clamped_all_lemma t h nx c ps :
    NoDup (c_movable c) -> all_live h (c_movable c) ->
    exists h', run t (set_joint_positions_clamped c ps) (quiet h nx) = Done tt (quiet h' nx) /\
      (forall i a p, c_movable c !! i = Some a -> ps !! i = Some p -> clamped_at h h' a p) /\
      (forall b, b ∉ take (length ps) (c_movable c) -> h' !! b = h !! b).
  Proof.
    intros Hnd Hl. eexists. split.
    - unfold set_joint_positions_clamped. apply run_clamped_list. intros a Ha. apply Hl.
      rewrite zip_fst in Ha. eapply elem_of_take in Ha as (k & Hk & _). eapply elem_of_list_lookup_2; eauto.
    - split.
      + intros i a p Ha Hp. destruct (Hl a) as [n Hn]; [eapply elem_of_list_lookup_2; eauto|].
        exists n, (set_n_joint n (joint_set_clamped (n_joint n) p)). split; [assumption|]. split.
        * rewrite (upd_all_at _ _ _ a p); [rewrite Hn; reflexivity| |eapply zip_lookup; eauto].
          rewrite zip_fst. apply NoDup_take. assumption.
        * destruct (set_clamped_lemma (n_joint n) p) as (H1 & H2 & H3). split; [|split].
          -- intros Hf. rewrite H1 by assumption. destruct n; reflexivity.
          -- intros Hm He. split; [apply H2; assumption|]. repeat split.
          -- intros Hm r Hr. split; [apply H3; assumption|]. repeat split.
      + intros b Hb. apply upd_all_other. rewrite zip_fst. assumption.
  Qed.
  Lemma set_unchecked_all_lemma t h nx c ps :
    NoDup (c_movable c) -> all_live h (c_movable c) ->
    exists h', run t (set_joint_positions_unchecked c ps) (quiet h nx) = Done tt (quiet h' nx) /\
      (forall i a p, c_movable c !! i = Some a -> ps !! i = Some p -> moved_at h h' a p) /\
      (forall b, b ∉ take (length ps) (c_movable c) -> h' !! b = h !! b).
  Proof.
    intros Hnd Hl. eexists. split.
    - unfold set_joint_positions_unchecked. apply run_unchecked_list. intros a Ha. apply Hl.
      rewrite zip_fst in Ha. eapply elem_of_take in Ha as (k & Hk & _). eapply elem_of_list_lookup_2; eauto.
    - apply moved_all; auto.
  Qed.

  (** ** SerialChain::try_new (C26) *)
  Definition one_childb h (a : nat) : bool :=
    match h !! a with Some n => Nat.eqb (length (n_children n)) 1 | None => false end.
  Lemma one_childb_iff h a : one_childb h a = true <-> child_count h a 1.
  Proof.
    unfold one_childb, child_count. destruct (h !! a) as [n|].
    - rewrite Nat.eqb_eq. split; [eauto|]. intros (n' & E & H). congruence.
    - split; [discriminate|]. intros (n' & E & H). congruence.
  Qed.
  Lemma run_all_one_child t h nx l : all_live h l ->
    run t (all_one_child l) (quiet h nx) = Done (forallb (one_childb h) l) (quiet h nx).
  Proof.
    induction l as [|a l IH]; intros Hl; [reflexivity|]. cbn [all_one_child forallb].
    destruct (Hl a) as [n Hn]; [set_solver|].
    rewrite run_bind, (run_children _ _ _ _ n) by assumption. cbn [obind].
    unfold one_childb at 1. rewrite Hn. destruct (decide _) as [E|E].
    - rewrite E. cbn. apply IH. intros b Hb. apply Hl. set_solver.
    - apply Nat.eqb_neq in E. rewrite E. reflexivity.
  Qed.
  Lemma run_try_new t ovf h nx c l x :
    all_live h (c_nodes c) -> c_nodes c = l ++ [x] ->
    exists o, run t (try_new ovf c) (quiet h nx) = Done o (quiet h nx) /\
      (o = Some c \/ o = None) /\ (o = Some c <-> forall a, a ∈ l -> child_count h a 1).
  Proof.
    intros Hl E. unfold try_new, usize_sub.
    assert (Hlen : length (c_nodes c) = S (length l)) by (rewrite E, app_length; cbn; lia).
    rewrite Hlen. rewrite decide_True by lia. cbn [bind].
    rewrite decide_True by lia. rewrite Nat2N.id.
    replace (S (length l) - 1) with (length l) by lia.
    replace (take (length l) (c_nodes c)) with l by (rewrite E, take_app; reflexivity).
    rewrite run_bind, run_all_one_child by (intros a Ha; apply Hl; rewrite E; set_solver). cbn [obind run].
    eexists. split; [reflexivity|]. split; [destruct (forallb _ _); auto|].
    rewrite <- (Forall_forall (fun a => child_count h a 1)).
    destruct (forallb (one_childb h) l) eqn:Ef.
    - split; [|reflexivity]. intros _. apply Forall_forall. intros a Ha.
      apply one_childb_iff. rewrite forallb_forall in Ef. apply Ef. apply elem_of_list_In. assumption.
    - split; [discriminate|]. rewrite Forall_forall. intros H. exfalso.
      assert (forallb (one_childb h) l = true) as Ht; [|congruence].
      apply forallb_forall. intros a Ha. apply one_childb_iff, H, elem_of_list_In. assumption.
  Qed.
  Lemma run_try_new_empty t ovf h nx c : c_nodes c = [] ->
    run t (try_new (T := T) ovf c) (quiet h nx) =
    if ovf then Panicked "attempt to subtract with overflow" (quiet h nx) else Done (Some c) (quiet h nx).
  Proof.
    intros E. unfold try_new. rewrite E. unfold usize_sub. rewrite decide_False by (cbn; lia).
    destruct ovf; [apply run_panic_quiet|]. cbn [bind length]. rewrite decide_False; [reflexivity|].
    intros H. vm_compute in H. congruence.
  Qed.

  Lemma preorder_nonempty tr : exists b l, preorder_last tr = b :: l.
  Proof. destruct tr. cbn. eauto. Qed.
  Lemma preorder_last_leaf h tr : tree_in h tr -> forall l x, preorder_last tr = l ++ [x] -> child_count h x 0.
  Proof.
    induction tr as [a cs IH] using tree_ind'. intros Ht l x E.
    inversion Ht as [a' n cs' Hn Hch Hcs]; subst. destruct cs as [|t0 cs].
    - cbn in E. destruct l as [|y l]; [|destruct l; discriminate].
      injection E as <-. exists n. split; [assumption|]. rewrite Hch. reflexivity.
    - cbn [preorder_last map rev] in E. rewrite concat_app in E. cbn [concat] in E. rewrite app_nil_r in E.
      apply Forall_cons in IH as [IH0 _], Hcs as [Hc0 _].
      destruct (preorder_nonempty t0) as (b & l0 & E0).
      destruct (@exists_last _ (preorder_last t0)) as (l' & x' & E'); [rewrite E0; discriminate|].
      rewrite E', app_assoc, app_comm_cons in E. apply app_inj_tail in E as [_ <-]. eapply IH0; eauto.
  Qed.
  Lemma unary_path h tr : tree_in h tr ->
    (forall l x, preorder_last tr = l ++ [x] -> forall a, a ∈ l -> child_count h a 1) ->
    single_path h (preorder_last tr).
  Proof.
    induction tr as [a cs IH] using tree_ind'. intros Ht H1.
    inversion Ht as [a' n cs' Hn Hch Hcs]; subst. destruct cs as [|t0 [|t1 cs]].
    - intros i b b' _ Hb'. cbn in Hb'. discriminate.
    - cbn [preorder_last map rev concat app] in *. rewrite app_nil_r in *.
      apply Forall_cons in IH as [IH0 _], Hcs as [Hc0 _].
      assert (Hs : single_path h (preorder_last t0)).
      { apply IH0; [assumption|]. intros l x E b Hb. apply (H1 (a :: l) x); [rewrite E; reflexivity|set_solver]. }
      intros [|i] b b' Hb Hb'; cbn in Hb, Hb'.
      + injection Hb as ->. exists n. split; [assumption|]. rewrite Hch. cbn. destruct t0; cbn in *.
        injection Hb' as ->. reflexivity.
      + eapply Hs; eauto.
    - exfalso. destruct (preorder_nonempty (TNode a (t0 :: t1 :: cs))) as (b & l & E).
      destruct (@exists_last _ (preorder_last (TNode a (t0 :: t1 :: cs)))) as (l' & x & E'); [rewrite E; discriminate|].
      assert (a ∈ l') as Hin.
      { destruct l' as [|y l'].
        - apply (f_equal length) in E'. rewrite preorder_last_length in E'. cbn in E'.
          destruct t0, t1; cbn in E'; lia.
        - cbn [preorder_last] in E'. injection E' as <- _. set_solver. }
      destruct (H1 _ _ E' a Hin) as (n' & Hn' & Hl). assert (n' = n) as -> by congruence.
      rewrite Hch in Hl. discriminate.
  Qed.
  Lemma try_new_tree_lemma t ovf h nx tr c :
    tree_in h tr -> chain_of h (preorder_last tr) c ->
    exists o, run t (try_new ovf c) (quiet h nx) = Done o (quiet h nx) /\
      (o = Some c \/ o = None) /\
      (o = Some c <-> forall a n, a ∈ preorder_last tr -> h !! a = Some n -> length (n_children n) <= 1) /\
      (o = Some c -> single_path h (c_nodes c)).
  Proof.
    intros Ht Hc. pose proof (tree_all_live h tr Ht) as Hl.
    destruct Hc as (Hn & _). destruct (preorder_nonempty tr) as (b & l0 & E0).
    destruct (@exists_last _ (preorder_last tr)) as (l & x & E); [rewrite E0; discriminate|].
    destruct (run_try_new t ovf h nx c l x) as (o & Hr & Ho & Hiff); [rewrite Hn; assumption|congruence|].
    exists o. split; [assumption|]. split; [assumption|].
    assert (Huse : o = Some c -> forall l' x', preorder_last tr = l' ++ [x'] -> forall a, a ∈ l' -> child_count h a 1).
    { intros Hs l' x' E'. rewrite E in E'. apply app_inj_tail in E' as [<- <-]. apply Hiff. assumption. }
    split; [|intros Hs; rewrite Hn; apply unary_path; [assumption|exact (Huse Hs)]]. split.
    - intros Hs a n Ha Hna. rewrite E in Ha. apply elem_of_app in Ha as [Ha|Ha].
      + destruct (Huse Hs l x E a Ha) as (n' & E1 & E2). rewrite Hna in E1. injection E1 as <-. lia.
      + apply elem_of_list_singleton in Ha as ->.
        destruct (preorder_last_leaf h tr Ht l x E) as (n' & E1 & E2). rewrite Hna in E1. injection E1 as <-. lia.
    - intros H. apply Hiff. intros a Ha. destruct (Hl a) as [n Hna]; [rewrite E; set_solver|].
      exists n. split; [assumption|]. pose proof (H a n) as Hle. rewrite E in Hle.
      specialize (Hle ltac:(set_solver) Hna). destruct (n_children n) as [|y [|z cs]] eqn:Ech; [|reflexivity|cbn in Hle; lia].
      exfalso. clear -Ht E Ha Hna Ech H. revert l x E Ha.
      induction tr as [r cs IH] using tree_ind'. intros l x E Ha.
      inversion Ht as [r' nr cs' Hr Hch Hcs]; subst.
      assert (Hlen : length (n_children nr) <= 1) by (apply (H r); [cbn; set_solver|assumption]).
      rewrite Hch, map_length in Hlen. destruct cs as [|t0 [|t1 cs]]; [| |cbn in Hlen; lia].
      + cbn in E. destruct l as [|y l]; [set_solver|]. destruct l; discriminate.
      + apply Forall_cons in IH as [IH0 _], Hcs as [Hc0 _]. cbn [preorder_last map rev concat app] in E, H.
        rewrite app_nil_r in E, H.
        destruct l as [|y l]; [set_solver|]. cbn in E. injection E as <- E.
        apply elem_of_cons in Ha as [->|Ha].
        * rewrite Hr in Hna. injection Hna as <-. rewrite Ech in Hch. discriminate.
        * eapply (IH0 Hc0); eauto. intros b nb Hb. apply H. set_solver.
  Qed.
End ChainProofs.
