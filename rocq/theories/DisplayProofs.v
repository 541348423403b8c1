(** * Display of chains *)
From Coq Require Import String Ascii.
From stdpp Require Import gmap.
From Verif Require Import Scalar Geometry Joint Link Prog NodeM ChainM RunLemmas SpecGraph GraphProofs SpecChain SpecDisplay.

Lemma indent_spaces k : indent k = spaces (4 * k).
Proof. induction k as [|k IH]; [reflexivity|]. cbn [indent]. rewrite IH. replace (4 * S k) with (4 + 4 * k) by lia. reflexivity. Qed.
Lemma sapp_nil_r (s : string) : (s ++ "")%string = s.
Proof. induction s as [|c s IH]; [reflexivity|]. change (String c (s ++ "") = String c s)%string. rewrite IH. reflexivity. Qed.
Lemma sapp_assoc (a b c : string) : (a ++ (b ++ c) = (a ++ b) ++ c)%string.
Proof. induction a as [|x a IH]; [reflexivity|]. change (String x (a ++ (b ++ c)) = String x ((a ++ b) ++ c))%string. rewrite IH. reflexivity. Qed.
Lemma concat_cons x l : String.concat "" (x :: l) = (x ++ String.concat "" l)%string.
Proof. destruct l; [symmetry; apply sapp_nil_r|reflexivity]. Qed.
Lemma concat_app_s l1 l2 : String.concat "" (l1 ++ l2) = (String.concat "" l1 ++ String.concat "" l2)%string.
Proof.
  induction l1 as [|x l IH]; [reflexivity|]. cbn [app]. rewrite !concat_cons, IH. apply sapp_assoc.
Qed.
Lemma concat_strings_concat l : concat_strings l = String.concat "" l.
Proof. induction l as [|x l IH]; [reflexivity|]. rewrite concat_cons, <- IH. reflexivity. Qed.
Lemma table_app text nodes r1 r2 : table text nodes (r1 ++ r2) = (table text nodes r1 ++ table text nodes r2)%string.
Proof. unfold table. rewrite List.filter_app, map_app. apply concat_app_s. Qed.
Lemma table_concat text nodes rs : table text nodes (concat rs) = String.concat "" (map (table text nodes) rs).
Proof.
  induction rs as [|r rs IH]; [reflexivity|]. cbn [concat map]. rewrite table_app, IH, concat_cons. reflexivity.
Qed.
Lemma table_cons text nodes d a rows : table text nodes ((d, a) :: rows) =
  ((if decide (a ∈ nodes) then spaces (4 * d) ++ text a ++ line_break else "") ++ table text nodes rows)%string.
Proof.
  unfold table. cbn [List.filter]. cbn [snd]. destruct (decide (a ∈ nodes)) as [Hin|Hin].
  - rewrite bool_decide_eq_true_2 by exact Hin. cbn [map fst snd]. apply concat_cons.
  - rewrite bool_decide_eq_false_2 by exact Hin. reflexivity.
Qed.
Lemma theight_le tr : theight tr <= tsize tr.
Proof.
  induction tr as [a cs IH] using tree_ind'. cbn [theight tsize]. apply le_n_S.
  induction IH as [|t l Ht Hl IH]; [reflexivity|]. cbn. unfold sum_list in *. cbn in *. lia.
Qed.
Lemma theight_sub cs t : t ∈ cs -> theight t <= foldr max 0 (map theight cs).
Proof. induction 1 as [t l|t y l H IH]; cbn; lia. Qed.
Lemma rows_preorder d tr : map snd (tree_rows d tr) = preorder_first tr.
Proof.
  revert d. induction tr as [a cs IH] using tree_ind'. intros d. cbn [tree_rows preorder_first map snd]. f_equal.
  rewrite concat_map, map_map. f_equal. induction IH as [|t l Ht Hl IH]; [reflexivity|]. cbn. rewrite Ht, IH. reflexivity.
Qed.

Section Display.
  Context {T : Type} `{Sc : Scalar T}.
  Implicit Types (h : gmap nat (node T)).

  Lemma node_text_string h a n : h !! a = Some n -> node_text joint_type_fmt h a = node_string n.
  Proof.
    intros Hn. unfold node_text, node_string. rewrite Hn. unfold joint_fmt. change space with " "%string.
    destruct (n_link n); rewrite !sapp_assoc; reflexivity.
  Qed.

  (** a subtree never contains the root *)
  Lemma tree_elem h tr : tree_in h tr -> forall b, b ∈ preorder_first tr ->
    exists t', tree_in h t' /\ troot t' = b /\ tsize t' <= tsize tr.
  Proof.
    induction tr as [a cs IH] using tree_ind'. intros Ht b Hb.
    inversion Ht as [a' n cs' Hn Hch Hcs]; subst. cbn [preorder_first] in Hb. apply elem_of_cons in Hb as [->|Hb].
    - exists (TNode a cs). auto.
    - apply elem_of_list_In, in_concat in Hb as (l & Hl & Hb). apply in_map_iff in Hl as (t & <- & Hin).
      apply elem_of_list_In in Hin, Hb. rewrite Forall_forall in IH, Hcs.
      destruct (IH t Hin (Hcs t Hin) b Hb) as (t' & H1 & H2 & H3). exists t'. split; [assumption|]. split; [assumption|].
      cbn [tsize]. enough (tsize t <= sum_list (map tsize cs)) by lia.
      clear -Hin. induction Hin as [t l|t y l H IH]; unfold sum_list in *; cbn in *; lia.
  Qed.
  Lemma tsize_sub cs t : t ∈ cs -> tsize t <= sum_list (map tsize cs).
  Proof. induction 1 as [t l|t y l H IH]; unfold sum_list in *; cbn in *; lia. Qed.
  Lemma sub_not_root h a cs : tree_in h (TNode a cs) -> forall t, t ∈ cs -> a ∉ preorder_first t.
  Proof.
    intros Ht t Hin Hb. inversion Ht as [a' n cs' Hn Hch Hcs]; subst. rewrite Forall_forall in Hcs.
    destruct (tree_elem h t (Hcs t Hin) a Hb) as (t' & H1 & H2 & H3).
    assert (t' = TNode a cs) as -> by (eapply tree_in_fun; eauto). cbn [tsize] in H3.
    pose proof (tsize_sub cs t Hin). lia.
  Qed.

  Lemma run_fmt_tree t h nx nodes tr : tree_in h tr -> forall L fuel level,
    (forall b, b ∈ preorder_first tr -> L !! b = None) -> theight tr <= fuel ->
    run t (fmt_with_indent_level fuel nodes (troot tr) level) (Sh h nx L ∅) =
    Done (table (node_text joint_type_fmt h) nodes (tree_rows level tr)) (Sh h nx L ∅).
  Proof.
    induction tr as [a cs IH] using tree_ind'. intros Ht L fuel level HL Hf. pose proof Ht as Ht'.
    inversion Ht as [a' n cs' Hn Hch Hcs]; subst. destruct fuel as [|fuel]; [cbn in Hf; lia|].
    cbn [troot fmt_with_indent_level]. assert (La : L !! a = None) by (apply HL; cbn; left).
    erewrite run_bind_done; cycle 1.
    { instantiate (1 := Sh h nx L ∅).
      instantiate (1 := (if decide (a ∈ nodes) then spaces (4 * level) ++ node_text joint_type_fmt h a ++ line_break else "")%string).
      destruct (decide (a ∈ nodes)); [|reflexivity]. unfold node_fmt.
      erewrite run_bind_done by (eapply run_read; eauto). cbn [run].
      rewrite indent_spaces, (node_text_string h a n Hn). reflexivity. }
    rewrite (run_lock_bind t a _ h nx L n Hn La).
    rewrite (run_get_bind t a _ h nx _ n Hn (lookup_insert _ _ _)).
    rewrite Hch.
    erewrite run_bind_done; cycle 1.
    { rewrite (run_mapM_pure t _ (fun c => match list_find (fun tr => troot tr = c) cs with
         | Some (_, tr) => table (node_text joint_type_fmt h) nodes (tree_rows (S level) tr) | None => ""%string end)).
      - reflexivity.
      - intros c Hc. rewrite Forall_forall in IH, Hcs.
        destruct (list_find (fun tr => troot tr = c) cs) as [[i tr]|] eqn:E.
        + apply list_find_Some in E as (E1 & E2 & _). apply elem_of_list_lookup_2 in E1. subst c.
          apply IH; auto.
          * intros b Hb. rewrite lookup_insert_ne; [|intros <-; eapply sub_not_root; eauto].
            apply HL. cbn [preorder_first]. right. apply elem_of_list_In, in_concat. exists (preorder_first tr).
            split; [apply in_map, elem_of_list_In; assumption|apply elem_of_list_In; assumption].
          * cbn [theight] in Hf. pose proof (theight_sub cs tr E1). lia.
        + exfalso. apply list_find_None in E. rewrite Forall_forall in E. apply elem_of_list_In, in_map_iff in Hc as (tr & Hr & Hin).
          apply elem_of_list_In in Hin. apply (E tr Hin Hr). }
    rewrite (run_unlock_bind t a _ h nx _ (lookup_insert _ _ _)). cbn [run].
    rewrite delete_insert by exact La. f_equal. cbn [tree_rows]. rewrite table_cons. f_equal.
    rewrite concat_strings_concat, table_concat, map_map, map_map. f_equal.
    apply map_ext_in. intros tr Hin. apply elem_of_list_In in Hin.
    destruct (list_find (fun tr0 => troot tr0 = troot tr) cs) as [[i tr']|] eqn:E.
    - apply list_find_Some in E as (E1 & E2 & _). apply elem_of_list_lookup_2 in E1. rewrite Forall_forall in Hcs.
      rewrite (tree_in_fun h tr' (Hcs _ E1) tr (Hcs _ Hin) E2). reflexivity.
    - apply list_find_None in E. rewrite Forall_forall in E. exfalso. apply (E tr Hin). reflexivity.
  Qed.

  Lemma run_chain_fmt t h nx c tr fuel : head (c_nodes c) = Some (troot tr) -> tree_in h tr -> theight tr <= fuel ->
    run t (chain_fmt fuel c) (quiet h nx) =
    Done (table (node_text joint_type_fmt h) (c_nodes c) (tree_rows 0 tr)) (quiet h nx).
  Proof.
    intros Hh Ht Hf. unfold chain_fmt. rewrite Hh. cbn [expect]. erewrite run_bind_done by reflexivity.
    apply run_fmt_tree; auto using lookup_empty.
  Qed.
  Lemma run_chain_fmt_empty t h nx c fuel : c_nodes c = [] ->
    run t (chain_fmt fuel c) (quiet h nx) = Panicked "called `Option::unwrap()` on a `None` value" (quiet h nx).
  Proof.
    intros Hc. unfold chain_fmt. rewrite Hc. cbn [head expect]. rewrite run_bind. cbn [obind run]. rewrite unwind_quiet. reflexivity.
  Qed.

  (** either the nodes below form a finite tree, or Display hangs *)
  Lemma run_fmt_dichotomy t h nx nodes fuel : children_live h -> forall a level L,
    dom L ⊆ dom h -> is_Some (h !! a) -> size (dom h) < fuel + size (dom L) ->
    (exists tr x, tree_in h tr /\ troot tr = a /\
      run t (fmt_with_indent_level fuel nodes a level) (Sh h nx L ∅) = Done x (Sh h nx L ∅)) \/
    (exists b s, run t (fmt_with_indent_level fuel nodes a level) (Sh h nx L ∅) = Deadlock b s).
  Proof.
    intros Hcl. induction fuel as [|fuel IH]; intros a level L HL [n Hn] Hsz.
    { apply subseteq_size in HL. lia. }
    cbn [fmt_with_indent_level].
    destruct (L !! a) as [u|] eqn:La.
    { right. rewrite run_bind. destruct (decide (a ∈ nodes)); cbn; rewrite ?Hn, ?La; eauto. }
    rewrite run_bind. 
    assert (exists x, run t (if decide (a ∈ nodes)
        then s <- node_fmt a ;; Ret (indent level ++ s ++ newline)%string else Ret ""%string) (Sh h nx L ∅) = Done x (Sh h nx L ∅)) as [x ->].
    { destruct (decide (a ∈ nodes)); [|eexists; reflexivity]. unfold node_fmt.
      erewrite run_bind_done by (eapply run_read; eauto). eexists. reflexivity. }
    cbn [obind]. rewrite (run_lock_bind t a _ h nx L n Hn La).
    rewrite (run_get_bind t a _ h nx _ n Hn (lookup_insert _ _ _)). rewrite run_bind.
    assert (HL' : dom (<[a:=t]> L) ⊆ dom h).
    { rewrite dom_insert_L. apply elem_of_dom_2 in Hn. set_solver. }
    assert (Hsz' : size (dom h) < fuel + size (dom (<[a:=t]> L))).
    { rewrite dom_insert_L, size_union, size_singleton by (apply not_elem_of_dom in La; set_solver). lia. }
    assert (Hch : forall c, c ∈ n_children n -> is_Some (h !! c)).
    { intros c Hc. apply (Hcl a c). exists n. auto. }
    assert (Hmap : forall cs, (forall c, c ∈ cs -> is_Some (h !! c)) ->
      (exists trs xs, Forall (tree_in h) trs /\ map troot trs = cs /\
        run t (mapM (fun ch => fmt_with_indent_level fuel nodes ch (S level)) cs) (Sh h nx (<[a:=t]> L) ∅) = Done xs (Sh h nx (<[a:=t]> L) ∅)) \/
      (exists b s, run t (mapM (fun ch => fmt_with_indent_level fuel nodes ch (S level)) cs) (Sh h nx (<[a:=t]> L) ∅) = Deadlock b s)).
    { induction cs as [|c cs IHc]; intros Hlive; [left; exists [], []; auto|].
      rewrite run_mapM_cons. destruct (IH c (S level) _ HL' (Hlive c ltac:(left)) Hsz') as [(tr & y & H1 & H2 & E)|(b & s & E)];
        rewrite E; cbn [obind]; [|eauto].
      destruct IHc as [(trs & xs & H3 & H4 & E')|(b & s & E')]; [intros; apply Hlive; right; assumption| |];
        rewrite E'; cbn [obind]; [|eauto].
      left. exists (tr :: trs), (y :: xs). split; [constructor; auto|]. split; [cbn; congruence|reflexivity]. }
    destruct (Hmap (n_children n) Hch) as [(trs & xs & H1 & H2 & E)|(b & s & E)]; rewrite E; cbn [obind]; [|eauto].
    left. exists (TNode a trs). eexists. split; [econstructor; eauto|]. split; [reflexivity|].
    rewrite (run_unlock_bind t a _ h nx _ (lookup_insert _ _ _)). cbn [run]. rewrite delete_insert by exact La. reflexivity.
  Qed.

  Lemma tree_no_cycle h tr : tree_in h tr -> forall b, rtc (lists_child h) (troot tr) b -> ~ tc (lists_child h) b b.
  Proof.
    intros Ht b Hr Hc.
    assert (Hb : b ∈ preorder_first tr) by (rewrite preorder_perm; apply (preorder_last_in h tr Ht); assumption).
    destruct (tree_elem h tr Ht b Hb) as (t' & H1 & H2 & _). clear Ht Hr Hb. subst b.
    destruct t' as [a cs]. cbn [troot] in Hc.
    assert (exists c, lists_child h a c /\ rtc (lists_child h) c a) as (c & H2 & H3).
    { inversion Hc as [x y Hxy|x y z Hxy Hyz]; subst; eauto using rtc_refl, tc_rtc. }
    destruct H2 as (n' & Hn' & Hin).
    inversion H1 as [a' n cs' Hn Hch Hcs]; subst. assert (n' = n) as -> by congruence. rewrite Hch in Hin.
    apply elem_of_list_In, in_map_iff in Hin as (t & <- & Hin). apply elem_of_list_In in Hin.
    apply (sub_not_root h a cs H1 t Hin). rewrite Forall_forall in Hcs. rewrite preorder_perm.
    apply (preorder_last_in h t); auto.
  Qed.

  Lemma run_chain_fmt_cycle t h nx c a b fuel : children_live h -> head (c_nodes c) = Some a -> is_Some (h !! a) ->
    rtc (lists_child h) a b -> tc (lists_child h) b b -> size (dom h) < fuel ->
    exists w s, run t (chain_fmt fuel c) (quiet h nx) = Deadlock w s.
  Proof.
    intros Hcl Hh Ha Hr Hc Hf. unfold chain_fmt. rewrite Hh. cbn [expect]. rewrite run_bind. cbn [run obind].
    destruct (run_fmt_dichotomy t h nx (c_nodes c) fuel Hcl a 0 ∅) as [(tr & x & H1 & H2 & E)|H]; auto.
    - rewrite dom_empty_L. set_solver.
    - rewrite dom_empty_L, size_empty. lia.
    - subst a. destruct (tree_no_cycle h tr H1 b Hr Hc).
  Qed.
  (** no cycle below: a tree, so a result *)
  Lemma run_chain_fmt_acyclic t h nx c a fuel : children_live h -> head (c_nodes c) = Some a -> is_Some (h !! a) ->
    (forall b, rtc (lists_child h) a b -> ~ tc (lists_child h) b b) -> size (dom h) < fuel ->
    exists x, run t (chain_fmt fuel c) (quiet h nx) = Done x (quiet h nx).
  Proof.
    intros Hcl Hh Ha Hno Hf. unfold chain_fmt. rewrite Hh. cbn [expect]. rewrite run_bind. cbn [run obind].
    assert (Hgen : forall fuel a level L, is_Some (h !! a) -> dom L ⊆ dom h -> size (dom h) < fuel + size (dom L) ->
      (forall b, rtc (lists_child h) a b -> ~ tc (lists_child h) b b) ->
      (forall b, is_Some (L !! b) -> tc (lists_child h) b a) ->
      exists x, run t (fmt_with_indent_level fuel (c_nodes c) a level) (Sh h nx L ∅) = Done x (Sh h nx L ∅)).
    { clear -Hcl. induction fuel as [|fuel IH]; intros a level L [n Hn] HL Hsz Hno Hup.
      { apply subseteq_size in HL. lia. }
      cbn [fmt_with_indent_level].
      assert (La : L !! a = None).
      { destruct (L !! a) as [u|] eqn:E; [|reflexivity]. destruct (Hno a); [reflexivity|]. apply Hup. rewrite E. eauto. }
      rewrite run_bind.
      assert (exists x, run t (if decide (a ∈ c_nodes c)
          then s <- node_fmt a ;; Ret (indent level ++ s ++ newline)%string else Ret ""%string) (Sh h nx L ∅) = Done x (Sh h nx L ∅)) as [x ->].
      { destruct (decide (a ∈ c_nodes c)); [|eexists; reflexivity]. unfold node_fmt.
        erewrite run_bind_done by (eapply run_read; eauto). eexists. reflexivity. }
      cbn [obind]. rewrite (run_lock_bind t a _ h nx L n Hn La).
      rewrite (run_get_bind t a _ h nx _ n Hn (lookup_insert _ _ _)). rewrite run_bind.
      assert (exists xs, run t (mapM (fun ch => fmt_with_indent_level fuel (c_nodes c) ch (S level)) (n_children n)) (Sh h nx (<[a:=t]> L) ∅)
        = Done xs (Sh h nx (<[a:=t]> L) ∅)) as [xs E].
      { assert (Hall : forall c, c ∈ n_children n -> lists_child h a c) by (intros c0 Hc; exists n; auto).
        revert Hall. generalize (n_children n). intros cs Hall. induction cs as [|c0 cs IHc]; [eexists; reflexivity|].
        rewrite run_mapM_cons. destruct (IH c0 (S level) (<[a:=t]> L)) as [y E].
        - eapply Hcl. apply Hall. left.
        - rewrite dom_insert_L. apply elem_of_dom_2 in Hn. set_solver.
        - rewrite dom_insert_L, size_union, size_singleton by (apply not_elem_of_dom in La; set_solver). lia.
        - intros b Hb. apply Hno. apply rtc_l with c0; [apply Hall; left|assumption].
        - intros b. destruct (decide (b = a)) as [->|Hne].
          + intros _. apply tc_once. apply Hall. left.
          + rewrite lookup_insert_ne by done. intros Hb. eapply tc_r; [apply Hup; exact Hb|]. apply Hall. left.
        - rewrite E. cbn [obind]. destruct IHc as [ys E']; [intros; apply Hall; right; assumption|].
          rewrite E'. eexists. reflexivity. }
      rewrite E. cbn [obind]. rewrite (run_unlock_bind t a _ h nx _ (lookup_insert _ _ _)). cbn [run].
      rewrite delete_insert by exact La. eexists. reflexivity. }
    apply Hgen; auto.
    - rewrite dom_empty_L. set_solver.
    - rewrite dom_empty_L, size_empty. lia.
    - intros b [x Hx]. rewrite lookup_empty in Hx. discriminate.
  Qed.

  (** tags *)
  Lemma tag_kind (ty ty' : joint_type T) : joint_type_fmt ty = joint_type_fmt ty' -> same_kind ty ty'.
  Proof. destruct ty, ty'; cbn; intros H; try exact I; discriminate. Qed.
End Display.
