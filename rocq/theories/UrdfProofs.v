(** * Loading URDF robots: proofs *)
From Coq Require Import String.
From stdpp Require Import gmap strings.
From Verif Require Import Scalar Geometry Joint Link Prog NodeM ChainM RunLemmas SpecJoint SpecNode JointProofs NodeProofs
  SpecGraph GraphProofs SpecChain ChainProofs Api UrdfM SpecUrdf.

(** ** positions in lists *)
Section Index.
  Context {A : Type}.
  Fixpoint last_idx (P : A -> bool) (l : list A) : option nat :=
    match l with
    | [] => None
    | x :: l => match last_idx P l with Some i => Some (S i) | None => if P x then Some 0 else None end
    end.
  Fixpoint idxs (P : A -> bool) (l : list A) : list nat :=
    match l with
    | [] => []
    | x :: l => (if P x then [0] else []) ++ map S (idxs P l)
    end.
  Lemma last_idx_some P l i : last_idx P l = Some i -> exists x, l !! i = Some x /\ P x = true.
  Proof.
    revert i. induction l as [|x l IH]; intros i; cbn; [discriminate|]. destruct (last_idx P l) as [j|] eqn:E.
    - intros H. injection H as <-. apply IH. reflexivity.
    - destruct (P x) eqn:Ex; [|discriminate]. intros H. injection H as <-. exists x. auto.
  Qed.
  Lemma last_idx_none P l : last_idx P l = None <-> forall x, x ∈ l -> P x = false.
  Proof.
    induction l as [|x l IH]; cbn; [split; [intros _ x Hx; inversion Hx|reflexivity]|].
    destruct (last_idx P l) as [j|].
    - split; [discriminate|]. intros H. destruct IH as [_ IH]. discriminate IH. intros y Hy. apply H. set_solver.
    - destruct (P x) eqn:Ex; split; try discriminate.
      + intros H. rewrite (H x) in Ex by set_solver. discriminate.
      + intros _ y Hy. apply elem_of_cons in Hy as [->|Hy]; [exact Ex|]. apply IH; auto.
      + reflexivity.
  Qed.
  Lemma idxs_elem P l i : i ∈ idxs P l <-> exists x, l !! i = Some x /\ P x = true.
  Proof.
    revert i. induction l as [|x l IH]; intros i; cbn; [split; [intros H; inversion H|intros (x & H & _); discriminate]|].
    rewrite elem_of_app, elem_of_list_fmap. destruct i as [|i].
    - split.
      + intros [H|(j & H & _)]; [|discriminate]. exists x. split; [reflexivity|]. destruct (P x); [reflexivity|inversion H].
      + intros (y & Hy & Hp). injection Hy as ->. left. rewrite Hp. set_solver.
    - cbn. rewrite <- IH. split.
      + intros [H|(j & H & Hj)]; [destruct (P x); set_solver|]. injection H as ->. exact Hj.
      + intros H. right. eauto.
  Qed.
  Lemma idxs_nodup P l : NoDup (idxs P l).
  Proof.
    induction l as [|x l IH]; cbn; [constructor|]. apply NoDup_app. split; [destruct (P x); repeat constructor; set_solver|]. split.
    - intros i Hi Hi2. destruct (P x); [|inversion Hi]. apply elem_of_list_singleton in Hi as ->. apply elem_of_list_fmap in Hi2 as (j & Hj & _). discriminate.
    - apply NoDup_fmap_2; [intros a b; congruence|exact IH].
  Qed.
  Lemma nodup_key {K} (f : A -> K) l i j x y : NoDup (map f l) -> l !! i = Some x -> l !! j = Some y -> f x = f y -> i = j.
  Proof.
    intros Hnd Hi Hj E. eapply (NoDup_lookup (map f l)); [exact Hnd| |].
    - transitivity (f <$> l !! i); [apply list_lookup_fmap|rewrite Hi; reflexivity].
    - transitivity (f <$> l !! j); [apply list_lookup_fmap|rewrite Hj; cbn; congruence].
  Qed.
  Lemma last_idx_key {K} `{EqDecision K} (f : A -> K) l k i x : NoDup (map f l) -> l !! i = Some x -> f x = k ->
    last_idx (fun y => bool_decide (f y = k)) l = Some i.
  Proof.
    intros Hnd Hi Hk. destruct (last_idx _ l) as [j|] eqn:E.
    - apply last_idx_some in E as (y & Hj & Hy). apply bool_decide_eq_true in Hy. f_equal. eapply (nodup_key f); eauto. congruence.
    - pose proof (proj1 (last_idx_none _ _) E x) as H. rewrite bool_decide_eq_false in H. exfalso. apply H; [|exact Hk]. eapply elem_of_list_lookup_2; eauto.
  Qed.
End Index.

Section UrdfProofs.
  Context {S T : Type} `{SS : Scalar S} `{ST : Scalar T} (conv : S -> T).
  Implicit Types (h : gmap nat (node T)).

  (** ** building the nodes *)
  Fixpoint maps_of (nx : nat) (js : list (ujoint S)) (m : maps) : maps :=
    match js with
    | [] => m
    | j :: js => maps_of (Datatypes.S nx) js (Maps (ref_nodes m ++ [nx]) (<[uj_child j := nx]> (child_link_to_node m))
          (<[uj_name j := nx]> (joint_name_to_node m))
          (<[uj_parent j := default [] (parent_link_to_nodes m !! uj_parent j) ++ [nx]]> (parent_link_to_nodes m)))
    end.
  Lemma run_build_nodes t js : joints_convert conv js -> forall h nx m, (forall b, nx <= b -> h !! b = None) ->
    exists h', run t (build_nodes conv js m) (quiet h nx) = Done (maps_of nx js m) (quiet h' (nx + length js)) /\
      (forall b, b < nx -> h' !! b = h !! b) /\ (forall b, nx + length js <= b -> h' !! b = None) /\
      (forall i j, js !! i = Some j -> exists jt, joint_from conv j = Some jt /\ h' !! (nx + i) = Some (fresh_node jt)).
  Proof.
    intros Hc. induction js as [|j js IH]; intros h nx m Hb.
    - exists h. cbn. rewrite Nat.add_0_r. split; [reflexivity|]. split; [auto|]. split; [auto|]. intros i j Hi. discriminate.
    - destruct (Hc j) as [jt Hj]; [set_solver|]. assert (Hc' : joints_convert conv js) by (intros x Hx; apply Hc; set_solver).
      destruct (IH Hc' (<[nx := fresh_node jt]> h) (Datatypes.S nx) (Maps (ref_nodes m ++ [nx]) (<[uj_child j := nx]> (child_link_to_node m))
          (<[uj_name j := nx]> (joint_name_to_node m))
          (<[uj_parent j := default [] (parent_link_to_nodes m !! uj_parent j) ++ [nx]]> (parent_link_to_nodes m)))) as (h' & R & O & N & C).
      { intros b Hb'. rewrite lookup_insert_ne by lia. apply Hb. lia. }
      exists h'. cbn [build_nodes maps_of]. rewrite Hj. cbn [expect bind]. unfold node_new. rewrite run_bind. unfold quiet. rewrite run_new. cbn [obind].
      fold (quiet (<[nx := fresh_node jt]> h) (Datatypes.S nx)). rewrite R. cbn [length]. replace (nx + Datatypes.S (length js)) with (Datatypes.S nx + length js) by lia.
      split; [reflexivity|]. split; [|split].
      + intros b Hlt. rewrite O by lia. rewrite lookup_insert_ne by lia. reflexivity.
      + intros b Hge. apply N. lia.
      + intros [|i] x Hx; cbn in Hx.
        * injection Hx as <-. exists jt. split; [exact Hj|]. rewrite Nat.add_0_r, O by lia. apply lookup_insert.
        * destruct (C i x Hx) as (jx & E1 & E2). exists jx. split; [exact E1|]. rewrite <- E2. f_equal. lia.
  Qed.
  Lemma run_build_nodes_panic t js : ~ joints_convert conv js -> forall h nx m,
    exists msg s, run t (build_nodes conv js m) (quiet h nx) = Panicked msg s.
  Proof.
    induction js as [|j js IH]; intros Hc h nx m; [exfalso; apply Hc; intros j Hj; inversion Hj|].
    cbn [build_nodes]. destruct (joint_from conv j) as [jt|] eqn:Hj.
    - cbn [expect bind]. unfold node_new. rewrite run_bind. unfold quiet. rewrite run_new. cbn [obind]. fold (quiet (<[nx := fresh_node jt]> h) (Datatypes.S nx)).
      apply IH. intros H. apply Hc. intros x Hx. apply elem_of_cons in Hx as [->|Hx]; [eauto|apply H; exact Hx].
    - cbn. eauto.
  Qed.
  Lemma joints_convert_dec js : joints_convert conv js \/ ~ joints_convert conv js.
  Proof.
    induction js as [|j js IH]; [left; intros j Hj; inversion Hj|]. destruct (joint_from conv j) as [jt|] eqn:E.
    - destruct IH as [IH|IH]; [left|right].
      + intros x Hx. apply elem_of_cons in Hx as [->|Hx]; [eauto|auto].
      + intros H. apply IH. intros x Hx. apply H. set_solver.
    - right. intros H. destruct (H j) as [y Hy]; [set_solver|congruence].
  Qed.
  (** *** what the maps contain *)
  Lemma maps_ref js : forall nx m, ref_nodes (maps_of nx js m) = ref_nodes m ++ seq nx (length js).
  Proof. induction js as [|j js IH]; intros nx m; cbn; [rewrite app_nil_r; reflexivity|]. rewrite IH. cbn. rewrite <- app_assoc. reflexivity. Qed.
  Lemma maps_child js s : forall nx m, child_link_to_node (maps_of nx js m) !! s =
    match last_idx (fun j => bool_decide (uj_child j = s)) js with Some i => Some (nx + i) | None => child_link_to_node m !! s end.
  Proof.
    induction js as [|j js IH]; intros nx m; cbn; [reflexivity|]. rewrite IH. destruct (last_idx _ js) as [i|]; [f_equal; lia|]. cbn.
    destruct (bool_decide_reflect (uj_child j = s)) as [->|Hne]; [rewrite lookup_insert; f_equal; lia|rewrite lookup_insert_ne by exact Hne; reflexivity].
  Qed.
  Lemma maps_name js s : forall nx m, joint_name_to_node (maps_of nx js m) !! s =
    match last_idx (fun j => bool_decide (uj_name j = s)) js with Some i => Some (nx + i) | None => joint_name_to_node m !! s end.
  Proof.
    induction js as [|j js IH]; intros nx m; cbn; [reflexivity|]. rewrite IH. destruct (last_idx _ js) as [i|]; [f_equal; lia|]. cbn.
    destruct (bool_decide_reflect (uj_name j = s)) as [->|Hne]; [rewrite lookup_insert; f_equal; lia|rewrite lookup_insert_ne by exact Hne; reflexivity].
  Qed.
  Lemma maps_parent js s : forall nx m, default [] (parent_link_to_nodes (maps_of nx js m) !! s) =
    default [] (parent_link_to_nodes m !! s) ++ map (Nat.add nx) (idxs (fun j => bool_decide (uj_parent j = s)) js).
  Proof.
    induction js as [|j js IH]; intros nx m; cbn; [rewrite app_nil_r; reflexivity|]. rewrite IH. cbn [parent_link_to_nodes].
    rewrite map_app, map_map. rewrite (map_ext (fun x => nx + Datatypes.S x) (Nat.add (Datatypes.S nx))) by (intros; lia).
    destruct (bool_decide_reflect (uj_parent j = s)) as [->|Hne].
    - rewrite lookup_insert. cbn. rewrite <- app_assoc, Nat.add_0_r. reflexivity.
    - rewrite lookup_insert_ne by exact Hne. reflexivity.
  Qed.

  (** ** running modifications on live nodes *)
  Lemma run_alter t a g h nx : is_Some (h !! a) -> run t (modify a g) (quiet h nx) = Done tt (quiet (alter g a h) nx).
  Proof.
    intros [n Hn]. unfold quiet. rewrite (run_modify t a g h nx ∅ n Hn (lookup_empty a)).
    replace (alter g a h) with (<[a := g n]> h); [reflexivity|]. symmetry. apply alter_insert. exact Hn.
  Qed.
  Definition set_parent_h (c p : nat) h := alter (fun n => set_n_children n (n_children n ++ [c])) p (alter (fun n => set_n_parent n (Some p)) c h).
  Lemma alter_alive {g} a h b : is_Some (alter g a h !! b) <-> is_Some (h !! b).
  Proof. destruct (decide (a = b)) as [->|Hne]; [rewrite lookup_alter, fmap_is_Some; reflexivity|rewrite lookup_alter_ne by exact Hne; reflexivity]. Qed.
  Lemma set_parent_alive c p h b : is_Some (set_parent_h c p h !! b) <-> is_Some (h !! b).
  Proof. unfold set_parent_h. rewrite !alter_alive. reflexivity. Qed.
  Lemma run_set_parent_h t c p h nx : is_Some (h !! c) -> is_Some (h !! p) ->
    run t (node_set_parent c p) (quiet h nx) = Done tt (quiet (set_parent_h c p h) nx).
  Proof.
    intros Hc Hp. unfold node_set_parent. rewrite run_bind, run_alter by exact Hc. cbn [obind]. apply run_alter. apply alter_alive. exact Hp.
  Qed.
  (** the node after [set_parent_h] *)
  Lemma set_parent_node c p h a n : h !! a = Some n -> exists n', set_parent_h c p h !! a = Some n' /\
    n_joint n' = n_joint n /\ n_mimic_parent n' = n_mimic_parent n /\ n_mimic_children n' = n_mimic_children n /\ n_mimic n' = n_mimic n /\ n_link n' = n_link n /\
    n_parent n' = (if decide (a = c) then Some p else n_parent n) /\ n_children n' = n_children n ++ (if decide (a = p) then [c] else []).
  Proof.
    intros Hn. unfold set_parent_h. destruct (decide (a = p)) as [Ep|Ep]; destruct (decide (a = c)) as [Ec|Ec].
    - subst p c. rewrite !lookup_alter, Hn. cbn. eexists. split; [reflexivity|]. cbn. auto 10.
    - subst p. rewrite lookup_alter, lookup_alter_ne, Hn by auto. cbn. eexists. split; [reflexivity|]. cbn. auto 10.
    - subst c. rewrite lookup_alter_ne, lookup_alter, Hn by auto. cbn. eexists. split; [reflexivity|]. cbn. rewrite app_nil_r. auto 10.
    - rewrite !lookup_alter_ne by auto. exists n. rewrite app_nil_r. auto 10.
  Qed.

  (** ** the links *)
  Definition plist (m : maps) (s : string) : list nat := default [] (parent_link_to_nodes m !! s).
  Definition clink (m : maps) (l : ulink S) : option nat := child_link_to_node m !! ul_name l.
  Definition attach_h (m : maps) (root : nat) (l : ulink S) h : gmap nat (node T) :=
    match clink m l with
    | Some pn => alter (fun n => set_n_link n (Some (link_from conv l))) pn (foldl (fun h c => set_parent_h c pn h) h (plist m (ul_name l)))
    | None => alter (fun n => set_n_link n (Some (link_from conv l))) root h
    end.
  Definition same_core (n n' : node T) : Prop := n_joint n' = n_joint n.
  Definition same_mimic (n n' : node T) : Prop :=
    n_mimic_parent n' = n_mimic_parent n /\ n_mimic_children n' = n_mimic_children n /\ n_mimic n' = n_mimic n.
  Lemma run_set_parents t pn nx : forall cs h, (forall c, c ∈ cs -> is_Some (h !! c)) -> is_Some (h !! pn) ->
    run t (forM_ (fun c => node_set_parent c pn) cs) (quiet h nx) = Done tt (quiet (foldl (fun h c => set_parent_h c pn h) h cs) nx).
  Proof.
    induction cs as [|c cs IH]; intros h Hc Hp; [reflexivity|]. rewrite run_forM__cons, run_set_parent_h by (auto; apply Hc; set_solver).
    cbn [obind foldl]. apply IH; [|apply set_parent_alive; exact Hp]. intros x Hx. apply set_parent_alive, Hc. set_solver.
  Qed.
  Lemma set_parents_node pn : forall cs h a n, h !! a = Some n -> exists n', foldl (fun h c => set_parent_h c pn h) h cs !! a = Some n' /\
    n_joint n' = n_joint n /\ same_mimic n n' /\ n_link n' = n_link n /\
    n_parent n' = (if decide (a ∈ cs) then Some pn else n_parent n) /\ n_children n' = n_children n ++ (if decide (a = pn) then cs else []).
  Proof.
    induction cs as [|c cs IH]; intros h a n Hn.
    - exists n. destruct (decide (a ∈ [])) as [H|_]; [inversion H|]. destruct (decide (a = pn)); cbn; rewrite app_nil_r; unfold same_mimic; auto 10.
    - destruct (set_parent_node c pn h a n Hn) as (n1 & H1 & J1 & M1 & M2 & M3 & L1 & P1 & C1).
      destruct (IH _ _ _ H1) as (n2 & H2 & J2 & (M4 & M5 & M6) & L2 & P2 & C2). exists n2. cbn [foldl]. split; [exact H2|].
      split; [congruence|]. split; [unfold same_mimic; repeat split; congruence|]. split; [congruence|]. split.
      + rewrite P2, P1. destruct (decide (a ∈ cs)) as [Hin|Hin], (decide (a ∈ c :: cs)) as [Hin'|Hin'], (decide (a = c)); try reflexivity; exfalso; set_solver.
      + rewrite C2, C1. destruct (decide (a = pn)); [rewrite <- app_assoc; reflexivity|rewrite !app_nil_r; reflexivity].
  Qed.
  Definition contrib (m : maps) (a : nat) (l : ulink S) : list nat :=
    match clink m l with Some pn => if decide (a = pn) then plist m (ul_name l) else [] | None => [] end.
  Definition up_of (m : maps) (a : nat) (o : option nat) (l : ulink S) : option nat :=
    match clink m l with Some pn => if decide (a ∈ plist m (ul_name l)) then Some pn else o | None => o end.
  Definition link_of (m : maps) (root a : nat) (o : option (link T)) (l : ulink S) : option (link T) :=
    if decide (default root (clink m l) = a) then Some (link_from conv l) else o.
  Lemma attach_node m root l h a n : h !! a = Some n -> exists n', attach_h m root l h !! a = Some n' /\
    n_joint n' = n_joint n /\ same_mimic n n' /\ n_link n' = link_of m root a (n_link n) l /\
    n_parent n' = up_of m a (n_parent n) l /\ n_children n' = n_children n ++ contrib m a l.
  Proof.
    intros Hn. unfold attach_h, link_of, up_of, contrib. destruct (clink m l) as [pn|]; cbn.
    - destruct (set_parents_node pn (plist m (ul_name l)) h a n Hn) as (n1 & H1 & J1 & (M1 & M2 & M3) & L1 & P1 & C1).
      destruct (decide (pn = a)) as [E|E].
      + subst pn. rewrite lookup_alter, H1. cbn. eexists. split; [reflexivity|]. cbn. unfold same_mimic. cbn. auto 10.
      + rewrite lookup_alter_ne by exact E. exists n1. unfold same_mimic. auto 10.
    - rewrite app_nil_r. destruct (decide (root = a)) as [->|E].
      + rewrite lookup_alter, Hn. cbn. eexists. split; [reflexivity|]. cbn. unfold same_mimic. auto 10.
      + rewrite lookup_alter_ne by exact E. exists n. unfold same_mimic. auto 10.
  Qed.
  Definition maps_live (m : maps) (root : nat) h : Prop :=
    is_Some (h !! root) /\ (forall s c, c ∈ plist m s -> is_Some (h !! c)) /\ (forall s a, child_link_to_node m !! s = Some a -> is_Some (h !! a)) /\
    (forall s a, joint_name_to_node m !! s = Some a -> is_Some (h !! a)) /\ (forall a, a ∈ ref_nodes m -> is_Some (h !! a)).
  Lemma maps_live_mono m root h h' : (forall a, is_Some (h !! a) -> is_Some (h' !! a)) -> maps_live m root h -> maps_live m root h'.
  Proof. intros H (H1 & H2 & H3 & H4 & H5). repeat split; eauto. Qed.
  Lemma run_attach t m root l h nx : maps_live m root h -> run t (attach_link conv m root l) (quiet h nx) = Done tt (quiet (attach_h m root l h) nx).
  Proof.
    intros (H1 & H2 & H3 & _). unfold attach_link, attach_h, clink. destruct (child_link_to_node m !! ul_name l) as [pn|] eqn:E.
    - assert (Hpn : is_Some (h !! pn)) by eauto.
      assert (run t match parent_link_to_nodes m !! ul_name l with Some cs => forM_ (fun c => node_set_parent c pn) cs | None => Ret tt end (quiet h nx)
        = Done tt (quiet (foldl (fun h c => set_parent_h c pn h) h (plist m (ul_name l))) nx)) as R.
      { unfold plist. specialize (H2 (ul_name l)). unfold plist in H2. destruct (parent_link_to_nodes m !! ul_name l) as [cs|]; [|reflexivity]. apply run_set_parents; auto. }
      rewrite run_bind, R. cbn [obind]. unfold node_set_link. apply run_alter.
      destruct Hpn as [n Hn]. destruct (set_parents_node pn (plist m (ul_name l)) h pn n Hn) as (n1 & E1 & _). eauto.
    - unfold node_set_link. apply run_alter. exact H1.
  Qed.
  Lemma attach_links t m root nx : forall ls h, maps_live m root h ->
    exists h', run t (forM_ (attach_link conv m root) ls) (quiet h nx) = Done tt (quiet h' nx) /\
      (forall a, h !! a = None -> h' !! a = None) /\
      (forall a n, h !! a = Some n -> exists n', h' !! a = Some n' /\
        n_joint n' = n_joint n /\ same_mimic n n' /\ n_link n' = foldl (link_of m root a) (n_link n) ls /\
        n_parent n' = foldl (up_of m a) (n_parent n) ls /\ n_children n' = n_children n ++ concat (map (contrib m a) ls)).
  Proof.
    induction ls as [|l ls IH]; intros h Hm.
    - exists h. split; [reflexivity|]. split; [auto|]. intros a n Hn. exists n. cbn. rewrite app_nil_r. unfold same_mimic. auto 10.
    - assert (Hnone : forall a, h !! a = None -> attach_h m root l h !! a = None).
      { intros a Ha. apply eq_None_not_Some. intros Hs. apply eq_None_not_Some in Ha. apply Ha. unfold attach_h in Hs.
        assert (Hfold : forall pn cs h0, is_Some (foldl (fun h c => set_parent_h c pn h) h0 cs !! a) -> is_Some (h0 !! a)).
        { intros pn cs. induction cs as [|c cs IHc]; intros h0; cbn; [auto|]. intros H. apply IHc in H. apply (proj1 (set_parent_alive _ _ _ _)) in H. exact H. }
        destruct (clink m l); rewrite alter_alive in Hs; [apply Hfold in Hs; exact Hs|exact Hs]. }
      destruct (IH (attach_h m root l h)) as (h' & R & N & C).
      { eapply maps_live_mono; [|exact Hm]. intros a [n Hn]. destruct (attach_node m root l h a n Hn) as (n' & E & _). eauto. }
      exists h'. rewrite run_forM__cons, run_attach by exact Hm. cbn [obind]. split; [exact R|]. split; [auto|].
      intros a n Hn. destruct (attach_node m root l h a n Hn) as (n1 & E1 & J1 & (M1 & M2 & M3) & L1 & P1 & C1).
      destruct (C a n1 E1) as (n2 & E2 & J2 & (M4 & M5 & M6) & L2 & P2 & C2). exists n2. split; [exact E2|]. cbn [foldl map concat].
      split; [congruence|]. split; [unfold same_mimic; repeat split; congruence|]. split; [rewrite L2, L1; reflexivity|].
      split; [rewrite P2, P1; reflexivity|]. rewrite C2, C1, app_assoc. reflexivity.
  Qed.

  (** ** the mimic tags *)
  Definition msrc (m : maps) (j : ujoint S) : option (nat * nat * mimic T) :=
    match uj_mimic j with
    | None => None
    | Some mi => match joint_name_to_node m !! uj_name j, joint_name_to_node m !! um_joint mi with
                 | Some c, Some p => Some (c, p, mimic_from conv mi) | _, _ => None end
    end.
  Definition same_tree (n n' : node T) : Prop :=
    n_joint n' = n_joint n /\ n_parent n' = n_parent n /\ n_children n' = n_children n /\ n_link n' = n_link n.
  Definition mp_of (m : maps) (a : nat) (o : option nat) (j : ujoint S) : option nat :=
    match msrc m j with Some (c, p, _) => if decide (a = c) then Some p else o | None => o end.
  Definition mi_of (m : maps) (a : nat) (o : option (mimic T)) (j : ujoint S) : option (mimic T) :=
    match msrc m j with Some (c, _, mi) => if decide (a = c) then Some mi else o | None => o end.
  Definition mc_of (m : maps) (a : nat) (j : ujoint S) : list nat :=
    match msrc m j with Some (c, p, _) => if decide (a = p) then [c] else [] | None => [] end.
  Definition tag_known (m : maps) (j : ujoint S) : Prop := forall mi, uj_mimic j = Some mi -> is_Some (joint_name_to_node m !! um_joint mi).
  Lemma tag_known_dec m j : tag_known m j \/ ~ tag_known m j.
  Proof.
    unfold tag_known. destruct (uj_mimic j) as [mi|] eqn:E; [|left; discriminate].
    destruct (joint_name_to_node m !! um_joint mi) as [x|] eqn:E2; [left|right].
    - intros mi' H. injection H as <-. rewrite E2. eauto.
    - intros H. destruct (H mi eq_refl) as [y Hy]. congruence.
  Qed.
  Definition mimic_h (m : maps) (j : ujoint S) h : gmap nat (node T) :=
    match msrc m j with
    | Some (c, p, mi) => alter (fun n => set_n_mimic n (Some mi)) c (alter (fun n => set_n_mimic_children n (n_mimic_children n ++ [c])) p (alter (fun n => set_n_mimic_parent n (Some p)) c h))
    | None => h
    end.
  Lemma mimic_h_alive m j h b : is_Some (mimic_h m j h !! b) <-> is_Some (h !! b).
  Proof. unfold mimic_h. destruct (msrc m j) as [[[c p] mi]|]; [rewrite !alter_alive|]; reflexivity. Qed.
  Lemma mimic_h_node m j h a n : h !! a = Some n -> exists n', mimic_h m j h !! a = Some n' /\ same_tree n n' /\
    n_mimic_parent n' = mp_of m a (n_mimic_parent n) j /\ n_mimic n' = mi_of m a (n_mimic n) j /\ n_mimic_children n' = n_mimic_children n ++ mc_of m a j.
  Proof.
    intros Hn. unfold mimic_h, mp_of, mi_of, mc_of, same_tree. destruct (msrc m j) as [[[c p] mi]|]; [|exists n; rewrite app_nil_r; auto 10].
    destruct (decide (a = c)) as [Ec|Ec], (decide (a = p)) as [Ep|Ep].
    - subst c p. rewrite !lookup_alter, Hn. cbn. eexists. split; [reflexivity|]. cbn. auto 10.
    - subst c. rewrite lookup_alter, lookup_alter_ne, lookup_alter, Hn by auto. cbn. eexists. split; [reflexivity|]. cbn. rewrite app_nil_r. auto 10.
    - subst p. rewrite lookup_alter_ne, lookup_alter, lookup_alter_ne, Hn by auto. cbn. eexists. split; [reflexivity|]. cbn. auto 10.
    - rewrite !lookup_alter_ne by auto. exists n. rewrite app_nil_r. auto 10.
  Qed.
  Lemma run_add_mimic t m root j h nx : maps_live m root h -> is_Some (joint_name_to_node m !! uj_name j) ->
    (tag_known m j -> run t (add_mimic conv m j) (quiet h nx) = Done tt (quiet (mimic_h m j h) nx)) /\
    (~ tag_known m j -> exists msg s, run t (add_mimic conv m j) (quiet h nx) = Panicked msg s).
  Proof.
    intros (_ & _ & _ & H4 & _) [c Hc]. unfold add_mimic, mimic_h, msrc. rewrite Hc. split.
    - intros Hk. destruct (uj_mimic j) as [mi|] eqn:E; [|reflexivity]. destruct (Hk mi E) as [p Hp]. rewrite Hp. cbn [expect bind].
      unfold node_set_mimic_parent. rewrite run_bind, run_alter by eauto. cbn [obind]. rewrite run_bind, run_alter by (apply alter_alive; eauto). cbn [obind].
      apply run_alter. rewrite !alter_alive. eauto.
    - intros Hk. destruct (uj_mimic j) as [mi|] eqn:E; [|exfalso; apply Hk; intros mi; congruence]. cbn [expect bind].
      destruct (joint_name_to_node m !! um_joint mi) as [p|] eqn:E2; [exfalso; apply Hk; intros mi'; rewrite E; intros H; injection H as <-; eauto|].
      cbn. eauto.
  Qed.
  Lemma add_mimics t m root nx : forall js h, maps_live m root h -> (forall j, j ∈ js -> is_Some (joint_name_to_node m !! uj_name j)) ->
    ((forall j, j ∈ js -> tag_known m j) /\ exists h', run t (forM_ (add_mimic conv m) js) (quiet h nx) = Done tt (quiet h' nx) /\
      (forall a, h !! a = None -> h' !! a = None) /\
      (forall a n, h !! a = Some n -> exists n', h' !! a = Some n' /\ same_tree n n' /\
         n_mimic_parent n' = foldl (mp_of m a) (n_mimic_parent n) js /\ n_mimic n' = foldl (mi_of m a) (n_mimic n) js /\
         n_mimic_children n' = n_mimic_children n ++ concat (map (mc_of m a) js))) \/
    (~ (forall j, j ∈ js -> tag_known m j) /\ exists msg s, run t (forM_ (add_mimic conv m) js) (quiet h nx) = Panicked msg s).
  Proof.
    induction js as [|j js IH]; intros h Hm Hn.
    - left. split; [intros j Hj; inversion Hj|]. exists h. split; [reflexivity|]. split; [auto|]. intros a n Ha. exists n. cbn. rewrite app_nil_r. unfold same_tree. auto 10.
    - rewrite run_forM__cons. destruct (run_add_mimic t m root j h nx Hm (Hn j ltac:(set_solver))) as [R1 R2].
      destruct (tag_known_dec m j) as [Hk|Hk].
      + rewrite (R1 Hk). cbn [obind]. destruct (IH (mimic_h m j h)) as [[Hks (h' & R & N & C)]|[Hks HR]].
        * eapply maps_live_mono; [|exact Hm]. intros a. apply mimic_h_alive.
        * intros x Hx. apply Hn. set_solver.
        * left. split. { intros x Hx. apply elem_of_cons in Hx as [->|Hx]; auto. }
          exists h'. split; [exact R|]. split.
          { intros a Ha. apply N. apply eq_None_not_Some. rewrite mimic_h_alive. apply eq_None_not_Some. exact Ha. }
          intros a n Ha. destruct (mimic_h_node m j h a n Ha) as (n1 & E1 & (S1 & S2 & S3 & S4) & P1 & I1 & C1).
          destruct (C a n1 E1) as (n2 & E2 & (S5 & S6 & S7 & S8) & P2 & I2 & C2). exists n2. split; [exact E2|].
          split; [unfold same_tree; repeat split; congruence|]. cbn [foldl map concat]. rewrite P2, P1, I2, I1, C2, C1, app_assoc. auto.
        * right. split; [|exact HR]. intros H. apply Hks. intros x Hx. apply H. set_solver.
      + right. split; [intros H; apply Hk, H; set_solver|]. destruct (R2 Hk) as (msg & s & E). rewrite E. cbn. eauto.
  Qed.

  (** ** the root *)
  Definition has_up h (a : nat) : bool := match h !! a with Some n => match live h (n_parent n) with Some _ => true | None => false end | None => false end.
  Definition adopt_h (root a : nat) h : gmap nat (node T) := if has_up h a then h else set_parent_h a root h.
  Lemma run_adopt t root a h nx : is_Some (h !! a) -> is_Some (h !! root) -> run t (adopt root a) (quiet h nx) = Done tt (quiet (adopt_h root a h) nx).
  Proof.
    intros [n Hn] Hr. unfold adopt, adopt_h, has_up. rewrite Hn. rewrite run_bind.
    assert (Ha : is_Some (h !! a)) by eauto. destruct (live h (n_parent n)) as [p|] eqn:E.
    - rewrite (run_parent_some t h nx a p) by (apply (live_parent_iff h a n p Hn); exact E). reflexivity.
    - rewrite (run_parent_none t h nx a) by (apply (no_parent_iff h a n Hn); exact E). cbn [obind]. apply run_set_parent_h; assumption.
  Qed.
  Lemma adopt_alive root a h b : is_Some (adopt_h root a h !! b) <-> is_Some (h !! b).
  Proof. unfold adopt_h. destruct (has_up h a); [reflexivity|apply set_parent_alive]. Qed.
  Lemma adopt_none root a h b : adopt_h root a h !! b = None <-> h !! b = None.
  Proof. rewrite !eq_None_not_Some, adopt_alive. reflexivity. Qed.
  Lemma adopt_other root a h b : b <> a -> has_up (adopt_h root a h) b = has_up h b.
  Proof.
    intros Hne. unfold adopt_h. destruct (has_up h a); [reflexivity|]. unfold has_up. destruct (h !! b) as [n|] eqn:E.
    - destruct (set_parent_node a root h b n E) as (n' & E' & _ & _ & _ & _ & _ & P & _). rewrite E', P. rewrite decide_False by exact Hne.
      destruct (n_parent n) as [p|]; [|reflexivity]. unfold live. destruct (h !! p) as [x|] eqn:Ep.
      + destruct (set_parent_node a root h p x Ep) as (x' & Ex & _). rewrite Ex. reflexivity.
      + assert (set_parent_h a root h !! p = None) as ->; [|reflexivity]. apply eq_None_not_Some. rewrite set_parent_alive. apply eq_None_not_Some. exact Ep.
    - assert (set_parent_h a root h !! b = None) as ->; [|reflexivity]. apply eq_None_not_Some. rewrite set_parent_alive. apply eq_None_not_Some. exact E.
  Qed.
  Lemma run_adopts t root nx : forall rs h, NoDup rs -> root ∉ rs -> is_Some (h !! root) -> (forall a, a ∈ rs -> is_Some (h !! a)) ->
    exists h', run t (forM_ (adopt root) rs) (quiet h nx) = Done tt (quiet h' nx) /\ (forall a, h !! a = None -> h' !! a = None) /\
      forall a n, h !! a = Some n -> exists n', h' !! a = Some n' /\ n_joint n' = n_joint n /\ same_mimic n n' /\ n_link n' = n_link n /\
        n_parent n' = (if decide (a ∈ rs) then if has_up h a then n_parent n else Some root else n_parent n) /\
        n_children n' = n_children n ++ (if decide (a = root) then List.filter (fun b => negb (has_up h b)) rs else []).
  Proof.
    induction rs as [|r rs IH]; intros h Hnd Hr Hroot Hl.
    - exists h. split; [reflexivity|]. split; [auto|]. intros a n Hn. exists n. destruct (decide (a ∈ [])) as [H|_]; [inversion H|].
      destruct (decide (a = root)); cbn; rewrite app_nil_r; unfold same_mimic; auto 10.
    - apply NoDup_cons in Hnd as [Hr1 Hnd]. apply not_elem_of_cons in Hr as [Hne Hr].
      rewrite run_forM__cons, run_adopt by (first [exact Hroot|apply Hl; left]). cbn [obind].
      destruct (IH (adopt_h root r h) Hnd Hr) as (h' & R & N & C); [apply adopt_alive; exact Hroot|intros a Ha; apply adopt_alive, Hl; right; exact Ha|].
      exists h'. split; [exact R|]. split; [intros a Ha; apply N, adopt_none; exact Ha|]. intros a n Hn.
      assert (Hfil : List.filter (fun b => negb (has_up (adopt_h root r h) b)) rs = List.filter (fun b => negb (has_up h b)) rs).
      { apply filter_ext_in. intros b Hb. apply elem_of_list_In in Hb. rewrite adopt_other by (intros ->; contradiction). reflexivity. }
      rewrite Hfil in C.
      assert (exists n1, adopt_h root r h !! a = Some n1 /\ n_joint n1 = n_joint n /\ same_mimic n n1 /\ n_link n1 = n_link n /\
        n_parent n1 = (if decide (a = r) then if has_up h r then n_parent n else Some root else n_parent n) /\
        n_children n1 = n_children n ++ (if decide (a = root) then if has_up h r then [] else [r] else [])) as (n1 & E1 & J1 & (M1 & M2 & M3) & L1 & P1 & C1).
      { unfold adopt_h. destruct (has_up h r) eqn:Eup.
        - exists n. destruct (decide (a = root)), (decide (a = r)); rewrite app_nil_r; unfold same_mimic; auto 10.
        - destruct (set_parent_node r root h a n Hn) as (n' & Q1 & Q2 & Q3 & Q4 & Q5 & Q6 & Q7 & Q8). exists n'. unfold same_mimic. auto 10. }
      destruct (C a n1 E1) as (n2 & E2 & J2 & (M4 & M5 & M6) & L2 & P2 & C2). exists n2. split; [exact E2|]. split; [congruence|].
      split; [unfold same_mimic; repeat split; congruence|]. split; [congruence|]. split.
      + rewrite P2, P1. destruct (decide (a = r)) as [->|Har].
        * destruct (decide (r ∈ rs)); [contradiction|]. destruct (decide (r ∈ r :: rs)) as [_|Hx]; [reflexivity|exfalso; apply Hx; left].
        * rewrite adopt_other by exact Har. destruct (decide (a ∈ rs)) as [H|H], (decide (a ∈ r :: rs)) as [H'|H']; try reflexivity; exfalso; [apply H'; right; exact H|]. apply elem_of_cons in H' as [?|?]; contradiction.
      + rewrite C2, C1. destruct (decide (a = root)); [|rewrite !app_nil_r; reflexivity]. rewrite <- app_assoc. cbn. destruct (has_up h r); reflexivity.
  Qed.
End UrdfProofs.
