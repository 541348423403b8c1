(** * Loading URDF robots: what the nodes contain *)
From Coq Require Import String Sorted.
From stdpp Require Import gmap strings.
From Verif Require Import Scalar Geometry Joint Link Prog NodeM ChainM RunLemmas SpecJoint SpecNode JointProofs NodeProofs
  SpecGraph GraphProofs SpecChain ChainProofs Api UrdfM SpecUrdf UrdfProofs.

Section Lists.
  Context {A : Type}.
  Lemma foldl_pick {B} (u : A -> option B) l : forall o,
    (exists l1 x l2 y, l = l1 ++ x :: l2 /\ u x = Some y /\ (forall z, z ∈ l2 -> u z = None) /\
       foldl (fun o x => match u x with Some y => Some y | None => o end) o l = Some y) \/
    (forall z, z ∈ l -> u z = None) /\ foldl (fun o x => match u x with Some y => Some y | None => o end) o l = o.
  Proof.
    induction l as [|x l IH]; intros o; cbn [foldl]; [right; split; [intros z Hz; inversion Hz|reflexivity]|].
    destruct (IH (match u x with Some y => Some y | None => o end)) as [(l1 & z & l2 & y & -> & H1 & H2 & H3)|[H1 H2]].
    - left. exists (x :: l1), z, l2, y. auto.
    - rewrite H2. destruct (u x) as [y|] eqn:E.
      + left. exists [], x, l, y. auto.
      + right. split; [|reflexivity]. intros z Hz. apply elem_of_cons in Hz as [->|Hz]; auto.
  Qed.
  Lemma concat_idxs (P : A -> bool) (F : A -> list nat) l : forall k,
    (forall i x, l !! i = Some x -> F x = if P x then [k + i] else []) -> concat (map F l) = map (Nat.add k) (idxs P l).
  Proof.
    induction l as [|x l IH]; intros k H; cbn; [reflexivity|]. rewrite (H 0 x eq_refl), map_app, map_map. f_equal.
    - destruct (P x); reflexivity.
    - rewrite (IH (S k)); [apply map_ext; intros; lia|]. intros i y Hi. rewrite (H (S i) y Hi). destruct (P y); [f_equal; lia|reflexivity].
  Qed.
  Lemma filter_idxs (P : A -> bool) (f : nat -> bool) l : forall k,
    (forall i x, l !! i = Some x -> f (k + i) = P x) -> List.filter f (seq k (length l)) = map (Nat.add k) (idxs P l).
  Proof.
    induction l as [|x l IH]; intros k H; cbn; [reflexivity|]. rewrite map_app, map_map.
    pose proof (H 0 x eq_refl) as H0. rewrite Nat.add_0_r in H0. rewrite H0, (IH (S k)).
    - rewrite (map_ext (fun a => k + S a) (Nat.add (S k))) by (intros; lia). destruct (P x); cbn; rewrite ?Nat.add_0_r; reflexivity.
    - intros i y Hi. rewrite <- (H (S i) y Hi). f_equal. lia.
  Qed.
  Lemma sorted_map_add k l : StronglySorted lt l -> StronglySorted lt (map (Nat.add k) l).
  Proof.
    induction 1 as [|x l H IH Hf]; cbn; constructor; [exact IH|]. rewrite Forall_forall in *. intros y Hy. apply elem_of_list_In, in_map_iff in Hy as (z & <- & Hz).
    apply elem_of_list_In, Hf in Hz. lia.
  Qed.
  Lemma sorted_idxs P (l : list A) : StronglySorted lt (idxs P l).
  Proof.
    induction l as [|x l IH]; cbn; [constructor|]. apply (sorted_map_add 1) in IH. cbn in IH.
    destruct (P x); cbn; [|exact IH]. constructor; [exact IH|]. rewrite Forall_forall. intros y Hy. apply elem_of_list_In, in_map_iff in Hy as (z & <- & _). lia.
  Qed.
  Lemma idxs_in_order nx P (l : list A) (Q : nat -> Prop) : (forall i, Q i <-> exists x, l !! i = Some x /\ P x = true) ->
    joints_in_order nx Q (map (Nat.add (S nx)) (idxs P l)).
  Proof.
    intros HQ. split; [apply sorted_map_add, sorted_idxs|]. intros a. rewrite elem_of_list_In, in_map_iff. split.
    - intros (i & <- & Hi). exists i. split; [reflexivity|]. apply HQ, idxs_elem, elem_of_list_In, Hi.
    - intros (i & -> & Hi). exists i. split; [reflexivity|]. apply elem_of_list_In, idxs_elem, HQ, Hi.
  Qed.
  Lemma in_order_iff nx (P Q : nat -> Prop) l : (forall i, P i <-> Q i) -> joints_in_order nx P l -> joints_in_order nx Q l.
  Proof. intros H [H1 H2]. split; [exact H1|]. intros a. rewrite H2. split; intros (i & -> & Hi); exists i; split; auto; apply H; auto. Qed.
  Lemma in_order_nodup nx P l : joints_in_order nx P l -> NoDup l.
  Proof.
    intros [H _]. induction H as [|x l H IH Hf]; constructor; [|exact IH]. rewrite Forall_forall in Hf. intros Hx. specialize (Hf x Hx). lia.
  Qed.
  Lemma concat_once {K} `{EqDecision K} (f : A -> K) (k : K) (X : list nat) l : NoDup (map f l) ->
    concat (map (fun x => if decide (f x = k) then X else []) l) = if decide (k ∈ map f l) then X else [].
  Proof.
    induction l as [|x l IH]; cbn; intros Hnd; [destruct (decide _) as [H|_]; [inversion H|reflexivity]|].
    apply NoDup_cons in Hnd as [Hx Hnd]. rewrite (IH Hnd). destruct (decide (f x = k)) as [<-|Hne].
    - destruct (decide (f x ∈ map f l)); [contradiction|]. destruct (decide (f x ∈ f x :: map f l)) as [_|H]; [apply app_nil_r|exfalso; apply H; set_solver].
    - destruct (decide (k ∈ map f l)), (decide (k ∈ f x :: map f l)); try reflexivity; exfalso; set_solver.
  Qed.
End Lists.

Section UrdfProofs2.
  Context {S T : Type} `{SS : Scalar S} `{ST : Scalar T} (conv : S -> T).
  Implicit Types (h : gmap nat (node T)) (r : robot S).

  Lemma declared_names r s : declared r s <-> s ∈ map ul_name (r_links r).
  Proof. unfold declared. rewrite elem_of_list_In, in_map_iff. split; intros (l & H); exists l; rewrite <- elem_of_list_In in *; tauto. Qed.

  Section Maps.
    Context (r : robot S) (nx : nat) (Hwn : well_named r).
    Let js := r_joints r.
    Let m := maps_of (Datatypes.S nx) js (Maps [] ∅ ∅ ∅).
    Lemma m_child s i j : js !! i = Some j -> child_link_to_node m !! s = Some (Datatypes.S nx + i) <-> uj_child j = s.
    Proof.
      intros Hj. unfold m. rewrite maps_child. cbn [child_link_to_node]. rewrite lookup_empty. split.
      - destruct (last_idx _ js) as [k|] eqn:E; [|discriminate]. intros H. assert (k = i) as -> by (injection H; lia).
        apply last_idx_some in E as (x & Hx & Hd). apply bool_decide_eq_true in Hd. congruence.
      - intros Hs. rewrite (last_idx_key uj_child js s i j (wn_children _ Hwn) Hj Hs). reflexivity.
    Qed.
    Lemma m_child_some s a : child_link_to_node m !! s = Some a -> exists i j, js !! i = Some j /\ a = Datatypes.S nx + i /\ uj_child j = s.
    Proof.
      unfold m. rewrite maps_child. cbn [child_link_to_node]. rewrite lookup_empty. destruct (last_idx _ js) as [k|] eqn:E; [|discriminate].
      intros H. apply Some_inj in H. apply last_idx_some in E as (x & Hx & Hd). apply bool_decide_eq_true in Hd. eauto.
    Qed.
    Lemma m_child_none s : child_link_to_node m !! s = None <-> forall j, j ∈ js -> uj_child j <> s.
    Proof.
      unfold m. rewrite maps_child. cbn [child_link_to_node]. rewrite lookup_empty. destruct (last_idx _ js) as [k|] eqn:E.
      - split; [discriminate|]. intros H. apply last_idx_some in E as (x & Hx & Hd). apply bool_decide_eq_true in Hd. exfalso. apply (H x); [eapply elem_of_list_lookup_2; eauto|exact Hd].
      - split; [|reflexivity]. intros _ j Hj. pose proof (proj1 (last_idx_none _ _) E j Hj) as H. apply bool_decide_eq_false in H. exact H.
    Qed.
    Lemma m_name s i j : js !! i = Some j -> joint_name_to_node m !! s = Some (Datatypes.S nx + i) <-> uj_name j = s.
    Proof.
      intros Hj. unfold m. rewrite maps_name. cbn [joint_name_to_node]. rewrite lookup_empty. split.
      - destruct (last_idx _ js) as [k|] eqn:E; [|discriminate]. intros H. assert (k = i) as -> by (injection H; lia).
        apply last_idx_some in E as (x & Hx & Hd). apply bool_decide_eq_true in Hd. congruence.
      - intros Hs. rewrite (last_idx_key uj_name js s i j (wn_joints _ Hwn) Hj Hs). reflexivity.
    Qed.
    Lemma m_name_some s a : joint_name_to_node m !! s = Some a -> exists i j, js !! i = Some j /\ a = Datatypes.S nx + i /\ uj_name j = s.
    Proof.
      unfold m. rewrite maps_name. cbn [joint_name_to_node]. rewrite lookup_empty. destruct (last_idx _ js) as [k|] eqn:E; [|discriminate].
      intros H. apply Some_inj in H. apply last_idx_some in E as (x & Hx & Hd). apply bool_decide_eq_true in Hd. eauto.
    Qed.
    Lemma m_plist s : plist m s = map (Nat.add (Datatypes.S nx)) (idxs (fun j => bool_decide (uj_parent j = s)) js).
    Proof. unfold plist, m. rewrite maps_parent. cbn [parent_link_to_nodes]. rewrite lookup_empty. reflexivity. Qed.
    Lemma m_plist_elem s a : a ∈ plist m s <-> exists i j, js !! i = Some j /\ a = Datatypes.S nx + i /\ uj_parent j = s.
    Proof.
      rewrite m_plist, elem_of_list_In, in_map_iff. split.
      - intros (i & <- & Hi). apply elem_of_list_In, idxs_elem in Hi as (j & Hj & Hd). apply bool_decide_eq_true in Hd. eauto.
      - intros (i & j & Hj & -> & Hs). exists i. split; [reflexivity|]. apply elem_of_list_In, idxs_elem. exists j. split; [exact Hj|]. apply bool_decide_eq_true. exact Hs.
    Qed.
    Lemma m_ref : ref_nodes m = seq (Datatypes.S nx) (length js).
    Proof. unfold m. rewrite maps_ref. reflexivity. Qed.

    (** *** the links, per node *)
    Lemma contrib_joint i j : js !! i = Some j -> concat (map (contrib m (Datatypes.S nx + i)) (r_links r)) =
      if decide (uj_child j ∈ map ul_name (r_links r)) then plist m (uj_child j) else [].
    Proof.
      intros Hj. rewrite <- (concat_once ul_name (uj_child j) _ _ (wn_links _ Hwn)). f_equal. apply map_ext. intros l. unfold contrib, clink.
      pose proof (m_child (ul_name l) i j Hj) as Hc. destruct (decide (ul_name l = uj_child j)) as [E|E].
      - rewrite (proj2 Hc) by auto. destruct (decide _); [|contradiction]. rewrite E. reflexivity.
      - destruct (child_link_to_node m !! ul_name l) as [pn|]; [|reflexivity]. destruct (decide (Datatypes.S nx + i = pn)) as [<-|]; [|reflexivity].
        exfalso. apply E. symmetry. apply Hc. reflexivity.
    Qed.
    Lemma contrib_other a : (forall i, i < length js -> a <> Datatypes.S nx + i) -> concat (map (contrib m a) (r_links r)) = [].
    Proof.
      intros Ha. apply concat_nil_Forall. rewrite Forall_forall. intros x Hx. apply elem_of_list_In, in_map_iff in Hx as (l & <- & _).
      unfold contrib, clink. destruct (child_link_to_node m !! ul_name l) as [pn|] eqn:E; [|reflexivity]. destruct (decide (a = pn)) as [<-|]; [|reflexivity].
      apply m_child_some in E as (i & j & Hj & -> & _). exfalso. apply (Ha i); [apply lookup_lt_Some in Hj; exact Hj|reflexivity].
    Qed.
    Lemma up_joint i : i < length js -> (exists k, parent_joint r i k /\ foldl (up_of m (Datatypes.S nx + i)) None (r_links r) = Some (Datatypes.S nx + k)) \/
      (forall k, ~ parent_joint r i k) /\ foldl (up_of m (Datatypes.S nx + i)) None (r_links r) = None.
    Proof.
      intros Hi. destruct (lookup_lt_is_Some_2 js i Hi) as [j Hj]. set (a := Datatypes.S nx + i).
      set (u := fun l : ulink S => if decide (a ∈ plist m (ul_name l)) then clink m l else None).
      assert (Hu : forall o l, up_of m a o l = match u l with Some y => Some y | None => o end).
      { intros o l. unfold up_of, u. destruct (clink m l), (decide (a ∈ plist m (ul_name l))); reflexivity. }
      assert (E : forall ls o, foldl (up_of m a) o ls = foldl (fun o x => match u x with Some y => Some y | None => o end) o ls).
      { induction ls as [|l ls IH]; intros o; cbn [foldl]; [reflexivity|]. rewrite Hu. apply IH. }
      rewrite E. destruct (foldl_pick u (r_links r) None) as [(l1 & l & l2 & y & Hl & Hy & _ & ->)|[Hno ->]].
      - left. unfold u in Hy. destruct (decide (a ∈ plist m (ul_name l))) as [Ha|]; [|discriminate].
        apply m_plist_elem in Ha as (i' & j' & Hj' & Ei & Hp). assert (i' = i) as -> by (unfold a in Ei; lia).
        apply m_child_some in Hy as (k & jk & Hk & -> & Hck). exists k. split; [|reflexivity].
        exists j', jk. repeat split; auto; [congruence|]. exists l. split; [rewrite Hl; set_solver|auto].
      - right. split; [|reflexivity]. intros k (ji & jk & Hji & Hjk & Hc & (l & Hl & Hn)). specialize (Hno l Hl). unfold u in Hno.
        assert (Ha : a ∈ plist m (ul_name l)). { apply m_plist_elem. exists i, ji. auto. }
        destruct (decide (a ∈ plist m (ul_name l))) as [_|]; [|contradiction]. unfold clink in Hno.
        rewrite (proj2 (m_child (ul_name l) k jk Hjk)) in Hno by congruence. discriminate.
    Qed.
    Lemma up_other a o : (forall i, i < length js -> a <> Datatypes.S nx + i) -> foldl (up_of m a) o (r_links r) = o.
    Proof.
      intros Ha. generalize (r_links r). intros ls. revert o. induction ls as [|l ls IH]; intros o; cbn [foldl]; [reflexivity|]. rewrite IH.
      unfold up_of. destruct (clink m l); [|reflexivity]. destruct (decide _) as [H|]; [|reflexivity]. apply m_plist_elem in H as (i & j & Hj & -> & _).
      exfalso. apply (Ha i); [apply lookup_lt_Some in Hj; exact Hj|reflexivity].
    Qed.
    Lemma link_fold root a o : foldl (link_of conv m root a) o (r_links r) =
      foldl (fun o x => match (if decide (default root (clink m x) = a) then Some (link_from conv x) else None) with Some y => Some y | None => o end) o (r_links r).
    Proof.
      generalize (r_links r). intros ls. revert o. induction ls as [|l ls IH]; intros o; cbn [foldl]; [reflexivity|]. rewrite IH. f_equal.
      unfold link_of. destruct (decide _); reflexivity.
    Qed.
    Lemma link_joint i j : js !! i = Some j ->
      (exists l, l ∈ r_links r /\ ul_name l = uj_child j /\ foldl (link_of conv m nx (Datatypes.S nx + i)) None (r_links r) = Some (link_from conv l)) \/
      ~ declared r (uj_child j) /\ foldl (link_of conv m nx (Datatypes.S nx + i)) None (r_links r) = None.
    Proof.
      intros Hj. rewrite link_fold. destruct (foldl_pick (fun x => if decide (default nx (clink m x) = Datatypes.S nx + i) then Some (link_from conv x) else None) (r_links r) None)
        as [(l1 & l & l2 & y & Hl & Hy & _ & ->)|[Hno ->]].
      - left. destruct (decide _) as [E|]; [|discriminate]. injection Hy as <-. exists l. split; [rewrite Hl; set_solver|]. split; [|reflexivity].
        unfold clink in E. destruct (child_link_to_node m !! ul_name l) as [pn|] eqn:Ec; cbn in E; [|lia]. subst pn. apply (m_child (ul_name l) i j Hj) in Ec. auto.
      - right. split; [|reflexivity]. intros (l & Hl & Hn). specialize (Hno l Hl). cbn in Hno. unfold clink in Hno.
        rewrite (proj2 (m_child (ul_name l) i j Hj)) in Hno by auto. cbn in Hno. destruct (decide _); [discriminate|contradiction].
    Qed.
    Lemma free_none l : free_link r l <-> clink m l = None.
    Proof. unfold clink. rewrite m_child_none. reflexivity. Qed.
    Lemma link_root :
      (exists l1 l l2, r_links r = l1 ++ l :: l2 /\ free_link r l /\ (forall l', l' ∈ l2 -> ~ free_link r l') /\
                foldl (link_of conv m nx nx) None (r_links r) = Some (link_from conv l)) \/
      (forall l, l ∈ r_links r -> ~ free_link r l) /\ foldl (link_of conv m nx nx) None (r_links r) = None.
    Proof.
      assert (Hd : forall l, default nx (clink m l) = nx <-> free_link r l).
      { intros l. rewrite free_none. destruct (clink m l) as [a|] eqn:E; cbn; [|tauto]. apply m_child_some in E as (i & j & _ & -> & _). split; [lia|discriminate]. }
      rewrite link_fold. destruct (foldl_pick (fun x => if decide (default nx (clink m x) = nx) then Some (link_from conv x) else None) (r_links r) None)
        as [(l1 & l & l2 & y & Hl & Hy & Hno & ->)|[Hno ->]].
      - left. exists l1, l, l2. split; [exact Hl|]. destruct (decide _) as [E|]; [|discriminate]. apply Hd in E. split; [exact E|]. split; [|congruence].
        intros l' Hl'. specialize (Hno l' Hl'). cbn in Hno. destruct (decide _) as [E'|E']; [discriminate|]. rewrite <- Hd. exact E'.
      - right. split; [|reflexivity]. intros l Hl. specialize (Hno l Hl). cbn in Hno. destruct (decide _) as [E'|E']; [discriminate|]. rewrite <- Hd. exact E'.
    Qed.
    Lemma link_other a o : a < nx -> foldl (link_of conv m nx a) o (r_links r) = o.
    Proof.
      intros Ha. generalize (r_links r). intros ls. revert o. induction ls as [|l ls IH]; intros o; cbn [foldl]; [reflexivity|]. rewrite IH.
      unfold link_of. destruct (decide _) as [E|]; [|reflexivity]. exfalso. unfold clink in E. destruct (child_link_to_node m !! ul_name l) as [x|] eqn:Ec; cbn in E; [|lia].
      apply m_child_some in Ec as (i & j & _ & -> & _). lia.
    Qed.

    (** *** the mimic tags, per node *)
    Lemma msrc_joint k j : js !! k = Some j -> msrc conv m j = match uj_mimic j with None => None
      | Some mi => match joint_name_to_node m !! um_joint mi with Some p => Some (Datatypes.S nx + k, p, mimic_from conv mi) | None => None end end.
    Proof. intros Hk. unfold msrc. rewrite (proj2 (m_name (uj_name j) k j Hk) eq_refl). reflexivity. Qed.
    Lemma js_index j : j ∈ js -> exists k, js !! k = Some j. Proof. apply elem_of_list_lookup. Qed.
    Lemma foldl_js {B} (F : option B -> ujoint S -> option B) (u : ujoint S -> option B) o :
      (forall o j, F o j = match u j with Some y => Some y | None => o end) -> foldl F o js = foldl (fun o x => match u x with Some y => Some y | None => o end) o js.
    Proof. intros H. generalize js. intros l. revert o. induction l as [|x l IH]; intros o; cbn [foldl]; [reflexivity|]. rewrite H. apply IH. Qed.
    Definition tagged (a : nat) (j : ujoint S) : option (nat * mimic T) :=
      match msrc conv m j with Some (c, p, mi) => if decide (a = c) then Some (p, mi) else None | None => None end.
    Lemma tagged_some i j0 k j x : js !! i = Some j0 -> js !! k = Some j -> tagged (Datatypes.S nx + i) j = Some x -> k = i.
    Proof.
      intros Hi Hk. unfold tagged. rewrite (msrc_joint k j Hk). destruct (uj_mimic j) as [mi|]; [|discriminate].
      destruct (joint_name_to_node m !! um_joint mi) as [p|]; [|discriminate]. destruct (decide _) as [E|]; [|discriminate]. intros _. lia.
    Qed.
    Lemma pick_tag {B} (g : nat * mimic T -> B) i j : js !! i = Some j -> (forall j', j' ∈ js -> tag_known m j') ->
      foldl (fun o x => match g <$> tagged (Datatypes.S nx + i) x with Some y => Some y | None => o end) None js =
      match uj_mimic j with None => None | Some mi => match joint_name_to_node m !! um_joint mi with Some p => Some (g (p, mimic_from conv mi)) | None => None end end.
    Proof.
      intros Hj Hk. destruct (foldl_pick (fun x => g <$> tagged (Datatypes.S nx + i) x) js None) as [(l1 & x & l2 & y & Hl & Hy & _ & ->)|[Hno ->]].
      - assert (Hx : x ∈ js) by (rewrite Hl; set_solver). apply js_index in Hx as [k Hxk].
        destruct (tagged (Datatypes.S nx + i) x) as [z|] eqn:E; [|discriminate]. assert (k = i) as -> by (eapply tagged_some; eauto).
        assert (x = j) as -> by congruence. unfold tagged in E. rewrite (msrc_joint i j Hj) in E. destruct (uj_mimic j) as [mi|]; [|discriminate].
        destruct (joint_name_to_node m !! um_joint mi) as [p|]; [|discriminate]. destruct (decide _) as [_|]; [|discriminate]. injection E as <-. cbn in Hy. congruence.
      - assert (Hx : j ∈ js) by (eapply elem_of_list_lookup_2; eauto). specialize (Hno j Hx). unfold tagged in Hno. rewrite (msrc_joint i j Hj) in Hno.
        destruct (uj_mimic j) as [mi|]; [|reflexivity]. destruct (joint_name_to_node m !! um_joint mi) as [p|]; [|reflexivity]. destruct (decide _) as [_|H]; [discriminate|contradiction].
    Qed.
    Lemma mp_joint i j : js !! i = Some j -> (forall j', j' ∈ js -> tag_known m j') ->
      (exists k mi, mimics r i k mi /\ foldl (mp_of conv m (Datatypes.S nx + i)) None js = Some (Datatypes.S nx + k) /\ foldl (mi_of conv m (Datatypes.S nx + i)) None js = Some (mimic_from conv mi)) \/
      uj_mimic j = None /\ foldl (mp_of conv m (Datatypes.S nx + i)) None js = None /\ foldl (mi_of conv m (Datatypes.S nx + i)) None js = None.
    Proof.
      intros Hj Hk. rewrite (foldl_js (mp_of conv m (Datatypes.S nx + i)) (fun x => fst <$> tagged (Datatypes.S nx + i) x)).
      2:{ intros o x. unfold mp_of, tagged. destruct (msrc conv m x) as [[[c p] mi]|]; [|reflexivity]. destruct (decide _); reflexivity. }
      rewrite (foldl_js (mi_of conv m (Datatypes.S nx + i)) (fun x => snd <$> tagged (Datatypes.S nx + i) x)).
      2:{ intros o x. unfold mi_of, tagged. destruct (msrc conv m x) as [[[c p] mi]|]; [|reflexivity]. destruct (decide _); reflexivity. }
      rewrite !(pick_tag _ i j Hj Hk). destruct (uj_mimic j) as [mi|] eqn:E; [left|right; auto].
      destruct (Hk j (elem_of_list_lookup_2 _ _ _ Hj) mi E) as [p Hp]. rewrite Hp. apply m_name_some in Hp as (k & jk & Hjk & -> & Hn).
      exists k, mi. split; [exists j, jk; auto|auto].
    Qed.
    Definition mimic_name (j : ujoint S) : option string := um_joint <$> uj_mimic j.
    Lemma mc_joint k jk : js !! k = Some jk -> concat (map (mc_of conv m (Datatypes.S nx + k)) js) =
      map (Nat.add (Datatypes.S nx)) (idxs (fun j => bool_decide (mimic_name j = Some (uj_name jk))) js).
    Proof.
      intros Hk. apply concat_idxs. intros i j Hj. unfold mc_of. rewrite (msrc_joint i j Hj). unfold mimic_name. destruct (uj_mimic j) as [mi|]; cbn; [|reflexivity].
      pose proof (m_name (um_joint mi) k jk Hk) as Hn.
      destruct (bool_decide_reflect (Some (um_joint mi) = Some (uj_name jk))) as [E|E].
      - injection E as E. rewrite (proj2 Hn) by auto. destruct (decide _); [reflexivity|contradiction].
      - destruct (joint_name_to_node m !! um_joint mi) as [p|] eqn:Ep; [|reflexivity]. destruct (decide (Datatypes.S (nx + k) = p)) as [<-|]; [|reflexivity].
        exfalso. apply E. f_equal. symmetry. apply Hn. reflexivity.
    Qed.
    Lemma mimic_other a : (forall i, i < length js -> a <> Datatypes.S nx + i) ->
      (forall o, foldl (mp_of conv m a) o js = o) /\ (forall o, foldl (mi_of conv m a) o js = o) /\ concat (map (mc_of conv m a) js) = [].
    Proof.
      intros Ha. assert (Hm : forall j c p mi, msrc conv m j = Some (c, p, mi) -> a <> c /\ a <> p).
      { intros j c p mi. unfold msrc. destruct (uj_mimic j) as [x|]; [|discriminate]. destruct (joint_name_to_node m !! uj_name j) as [c'|] eqn:Ec; [|discriminate].
        destruct (joint_name_to_node m !! um_joint x) as [p'|] eqn:Ep; [|discriminate]. intros H. injection H as <- <- <-.
        apply m_name_some in Ec as (i & ? & Hi & -> & _), Ep as (k & ? & Hk' & -> & _). split; apply Ha; eapply lookup_lt_Some; eauto. }
      generalize js. intros l. split; [|split].
      - induction l as [|j l IH]; intros o; cbn [foldl]; [reflexivity|]. rewrite IH. unfold mp_of. destruct (msrc conv m j) as [[[c p] mi]|] eqn:E; [|reflexivity].
        destruct (decide _); [|reflexivity]. destruct (Hm j c p mi E). contradiction.
      - induction l as [|j l IH]; intros o; cbn [foldl]; [reflexivity|]. rewrite IH. unfold mi_of. destruct (msrc conv m j) as [[[c p] mi]|] eqn:E; [|reflexivity].
        destruct (decide _); [|reflexivity]. destruct (Hm j c p mi E). contradiction.
      - induction l as [|j l IH]; cbn; [reflexivity|]. rewrite IH, app_nil_r. unfold mc_of. destruct (msrc conv m j) as [[[c p] mi]|] eqn:E; [|reflexivity].
        destruct (decide _); [|reflexivity]. destruct (Hm j c p mi E). contradiction.
    Qed.
    Lemma known_tags : mimics_known r <-> forall j, j ∈ js -> tag_known m j.
    Proof.
      unfold mimics_known, tag_known. split.
      - intros H j Hj mi Hmi. destruct (H j mi Hj Hmi) as (k & Hk & Hn). apply js_index in Hk as [i Hi]. rewrite (proj2 (m_name (um_joint mi) i k Hi) Hn). eauto.
      - intros H j mi Hj Hmi. destruct (H j Hj mi Hmi) as [a Ha]. apply m_name_some in Ha as (i & k & Hk & _ & Hn). exists k. split; [eapply elem_of_list_lookup_2; eauto|exact Hn].
    Qed.
  End Maps.
End UrdfProofs2.
