(** * A clone answers like the original *)
From Coq Require Import String NArith Lia.
From stdpp Require Import gmap.
From Verif Require Import Scalar Geometry Joint Link Prog NodeM ChainM FuncsM IkM Api RunLemmas SpecGraph SpecChain SpecClone GraphProofs ChainProofs
  NodeProofs CloneProofs CloneProofs2 CloneProofs3 CloneProofs4 SpecIso IsoProofs.

Section IsoClone.
  Context {T : Type} `{Sc : Scalar T}.
  Implicit Types (h : gmap nat (node T)).

  Lemma map_twin (D : nat -> Prop) f l : (forall a, a ∈ l -> D a) -> Forall2 (twin_of D f) l (map f l).
  Proof.
    induction l as [|a l IH]; intros H; cbn; constructor.
    - split; [apply H; left|reflexivity].
    - apply IH. intros b Hb. apply H. right. exact Hb.
  Qed.
  Lemma opt_twin (D : nat -> Prop) f o : (forall a, o = Some a -> D a) -> option_Forall2 (twin_of D f) o (f <$> o).
  Proof. destruct o; cbn; constructor. split; auto. Qed.
  Lemma node_to_twin kids (D : nat -> Prop) f (n : node T) : mentions_only D n -> node_twin kids D f n (node_to f n).
  Proof. intros (H1 & H2 & H3 & H4). split; cbn; auto using map_twin, opt_twin. Qed.

  Lemma clone_twin_lemma kids t h nx tr c fuel :
    heap_ok h nx -> forest h -> tree_in h tr -> (forall n, h !! troot tr = Some n -> n_parent n = None) ->
    mimics_in_order h (preorder_last tr) -> chain_of h (preorder_last tr) c -> tsize tr < fuel -> (kids = true -> unbranched h (preorder_last tr)) ->
    exists c' h' nx' f, run t (chain_clone fuel c) (quiet h nx) = Done c' (quiet h' nx') /\
      (forall a, is_Some (h !! a) -> h' !! a = h !! a) /\ (forall a, a ∈ preorder_last tr -> h !! f a = None /\ is_Some (h' !! f a)) /\
      let D a := a ∈ preorder_last tr \/ nx <= a in
      (forall a b, D a -> D b -> f a = f b -> a = b) /\ state_twin kids D f (quiet h nx) (quiet h' nx') /\
      (unbranched h (preorder_last tr) -> chain_twin D f c c').
  Proof.
    intros Hok Hf Ht Hr Hm Hc Hfu Hkids.
    assert (Hlm : forall a m, a ∈ preorder_last tr -> live_mimic_parent h a m -> m ∈ preorder_last tr).
    { intros a m Ha (n & Hn & Em & _). apply (Hm a n Ha Hn). exact Em. }
    pose proof (tree_self_contained h tr Hf Ht Hr Hlm) as Hsc. pose proof (tree_all_live h tr Ht) as Hl.
    assert (Hmp : forall a n m, a ∈ preorder_last tr -> h !! a = Some n -> n_mimic_parent n = Some m -> mpar h a = Some m).
    { intros a n m Ha Hn E. apply mpar_iff. exists n. split; [exact Hn|]. split; [exact E|]. apply Hl. apply (Hm a n Ha Hn). exact E. }
    destruct Hc as (Ec & Em & Ed).
    assert (El : c_nodes c = troot tr :: tail (preorder_last tr)) by (rewrite Ec; destruct tr; reflexivity).
    assert (Hst : starts_at_root h (preorder_last tr)).
    { intros a n Ha Hn. apply Hr. destruct tr as [r cs]. cbn in Ha. injection Ha as ->. exact Hn. }
    assert (Hmc : mimics_complete h (preorder_last tr)).
    { intros a n m Ha Hn (n' & Hn' & E & _). rewrite Hn in Hn'. apply Some_inj in Hn'. subst n'. apply (proj1 (Hm a n Ha Hn) m E). }
    destruct (clone_cases t h nx c _ _ Hok ltac:(rewrite Ec; exact Hl) El) as [(_ & _ & _ & h2 & Hh & Hrun)|[Hno _]].
    2:{ exfalso. apply Hno. rewrite Ec. auto. }
    rewrite Ec in Hh, Hrun. set (g := copy_addr nx tr) in *. set (l := preorder_last tr) in *.
    pose proof (copied_tree h h2 nx tr Hok Hf Ht Hh Hsc) as Htree. fold g in Htree.
    pose proof (copied_root h nx tr Hf Ht) as Hroot. fold g in Hroot.
    pose proof (copied_order nx tr) as Hord. fold g in Hord.
    pose proof (copied_size nx tr) as Hsz. fold g in Hsz.
    pose proof (tree_copy h h2 nx tr Hf Ht Hh Hsc) as Hcopy. fold g l in Hcopy.
    destruct (run_from_root t h2 (nx + length l) (rename g (mirror tr)) fuel Htree ltac:(rewrite Hsz; exact Hfu)) as (c' & Hc' & Hof).
    rewrite Hroot in Hc'. rewrite Hord in Hof.
    set (f := fun a => if decide (a ∈ l) then g a else a + length l).
    assert (Hlt : forall a, a ∈ l -> a < nx) by (intros a Ha; apply (hk_bound _ _ Hok); auto).
    assert (Hfl : forall a, a ∈ l -> f a = g a) by (intros a Ha; unfold f; rewrite decide_True by exact Ha; reflexivity).
    assert (Hfn : forall a, nx <= a -> f a = a + length l).
    { intros a Ha. unfold f. rewrite decide_False; [reflexivity|]. intros Hin. specialize (Hlt a Hin). lia. }
    assert (Hgl : forall a, a ∈ l -> exists i, i < length l /\ l !! i = Some a /\ g a = nx + i).
    { intros a Ha. apply elem_of_list_lookup in Ha as [i Hi]. exists i. split; [eapply lookup_lt_Some; eauto|]. split; [exact Hi|]. apply (f_lookup h nx tr Hf Ht i a Hi). }
    assert (Hmapf : forall L, (forall a, a ∈ L -> a ∈ l) -> map g L = map f L).
    { intros L HL. apply map_ext_in. intros a Ha. symmetry. apply Hfl, HL, elem_of_list_In, Ha. }
    exists c', h2, (nx + length l), f. split; [rewrite Hrun; exact Hc'|].
    split; [intros a [n Hn]; rewrite (old_lookup h nx l Hok _ _ _ _ _ _ Hh Hn); auto|].
    split.
    { intros a Ha. rewrite (Hfl a Ha). destruct (Hgl a Ha) as (i & Hi & Hli & ->). destruct (Hl a Ha) as [n Hn]. split.
      - destruct (h !! (nx + i)) eqn:E; [|reflexivity]. pose proof (hk_bound _ _ Hok (nx + i) ltac:(eauto)). lia.
      - rewrite (ih_new _ _ _ _ _ _ _ Hh i a n Hi Hli Hn). eauto. }
    intros D.
    assert (Hinj : forall a b, D a -> D b -> f a = f b -> a = b).
    { intros a b [Ha|Ha] [Hb|Hb] E.
      - rewrite (Hfl a Ha), (Hfl b Hb) in E. apply (cb_inj _ _ _ _ Hcopy a b Ha Hb E).
      - rewrite (Hfl a Ha), (Hfn b Hb) in E. destruct (Hgl a Ha) as (i & Hi & _ & Eg). lia.
      - rewrite (Hfn a Ha), (Hfl b Hb) in E. destruct (Hgl b Hb) as (i & Hi & _ & Eg). lia.
      - rewrite (Hfn a Ha), (Hfn b Hb) in E. lia. }
    split; [exact Hinj|]. split.
    - split.
      + cbn. intros a Ha. destruct Ha as [Ha|Ha].
        * destruct (Hl a Ha) as [n Hn]. rewrite (Hfl a Ha). destruct (cb_node _ _ _ _ Hcopy a n Ha Hn) as (n' & Hn' & P1 & P2 & P3 & P4 & P5 & P6 & P7).
          rewrite Hn, Hn'. destruct (Hm a n Ha Hn) as (M1 & M2 & M3). destruct (Hgl a Ha) as (i & Hi & Hli & Eg).
          assert (En' : n' = copied h nx l (length l) (length l) i n).
          { rewrite Eg, (ih_new _ _ _ _ _ _ _ Hh i a n Hi Hli Hn) in Hn'. apply Some_inj in Hn'. symmetry. exact Hn'. }
          assert (Hpl : forall p, n_parent n = Some p -> p ∈ l).
          { intros p E. apply (Hsc a p Ha). left. split; [exists n; auto|]. eapply (forest_live h Hf). exists n. eauto. }
          assert (Hcl : forall b, b ∈ n_children n -> b ∈ l).
          { intros b Hb. apply (preorder_last_in h tr Ht). eapply rtc_r; [apply (preorder_last_in h tr Ht), Ha|]. exists n. auto. }
          assert (Emx : midx h l i = match n_mimic_parent n with Some m => index_of m l | None => None end).
          { unfold midx. rewrite Hli. destruct (n_mimic_parent n) as [m|] eqn:E; [rewrite (Hmp a n m Ha Hn E); reflexivity|]. unfold mpar. rewrite Hn, E. reflexivity. }
          split; [exact P1|exact P2| | | | |].
          -- rewrite En'. cbn. destruct (decide (i < length l)); [|contradiction]. rewrite Emx. destruct (n_mimic_parent n) as [m|] eqn:E.
             ++ destruct (M1 m eq_refl) as [Hml _]. destruct (index_of_elem m l Hml) as [j ->]. reflexivity.
             ++ symmetry. apply M2. reflexivity.
          -- rewrite P3. destruct (n_parent n) as [p|] eqn:E; cbn; constructor. specialize (Hpl p eq_refl). split; [left; exact Hpl|]. symmetry. apply Hfl, Hpl.
          -- rewrite En'. cbn. destruct (decide (i < length l)); [|contradiction]. rewrite Emx. destruct (n_mimic_parent n) as [m|] eqn:E; [|constructor].
             destruct (M1 m eq_refl) as [Hml _]. destruct (index_of_elem m l Hml) as [j Hj]. rewrite Hj. cbn. constructor. split; [left; exact Hml|].
             rewrite (Hfl m Hml). symmetry. apply (f_index nx tr j m Hj).
          -- rewrite En'. cbn [copied n_mimic_children]. assert (Epk : pick nx (midx h l) (length l) i = map g (List.filter (fun b => bool_decide (mpar h b = Some a)) l)).
             { apply (pick_copy h nx tr Hf Ht (midx h l) (mpar h) i a); [|exact Hli]. intros j b Hj. unfold midx. fold l in Hj. rewrite Hj. reflexivity. }
             rewrite Epk.
             assert (Efl : List.filter (fun b => bool_decide (mpar h b = Some a)) l = n_mimic_children n).
             { rewrite M3. assert (HL : forall b, b ∈ l -> b ∈ l) by auto. revert HL. generalize l at 1 3 4. intros L. induction L as [|b L IH]; intros HL; [reflexivity|].
               cbn [List.filter]. rewrite filter_cons, IH by (intros; apply HL; right; assumption).
               assert (Hb : b ∈ l) by (apply HL; left). destruct (Hl b Hb) as [nb Hnb]. rewrite Hnb. cbn [mbind option_bind].
               assert (E : mpar h b = n_mimic_parent nb). { destruct (n_mimic_parent nb) as [m|] eqn:E; [apply (Hmp b nb m Hb Hnb E)|]. unfold mpar. rewrite Hnb, E. reflexivity. }
               rewrite E. destruct (decide (n_mimic_parent nb = Some a)); [rewrite bool_decide_true by assumption|rewrite bool_decide_false by assumption]; reflexivity. }
             rewrite Efl. assert (Hsub : forall b, b ∈ n_mimic_children n -> b ∈ l). { intros b Hb. rewrite M3 in Hb. apply elem_of_list_filter in Hb. apply Hb. }
             rewrite (Hmapf _ Hsub). apply map_twin. intros b Hb. left. auto.
          -- intros Hk. rewrite P4. pose proof (Hkids Hk a n Ha Hn) as Hu. destruct (n_children n) as [|x [|y xs]] eqn:E; [constructor| |cbn in Hu; lia].
             cbn. constructor; [|constructor]. assert (Hx : x ∈ l) by (apply Hcl; left). split; [left; exact Hx|]. symmetry. apply Hfl, Hx.
        * rewrite (Hfn a Ha). destruct (h !! a) eqn:E; [pose proof (hk_bound _ _ Hok a ltac:(eauto)); lia|].
          replace (a + length l) with (nx + (length l + (a - nx))) by lia. rewrite (ih_none _ _ _ _ _ _ _ Hh) by lia. exact I.
      + intros a Ha. reflexivity.
      + intros a Ha. cbn. set_solver.
      + cbn. intros i. split; [right; lia|]. rewrite Hfn by lia. lia.
    - intros Hu. destruct Hof as (O1 & O2 & O3). pose proof (unbranched_order h tr Ht Hu) as Eo. fold l in Eo. rewrite Eo in O1, O2, O3.
      pose proof (filter_map_f h h2 nx tr Hok Hf Ht Hh Hsc l (fun a Ha => Ha)) as Efm. fold g in Efm. rewrite Efm in O2, O3.
      assert (Hsub : forall a, a ∈ List.filter (node_movable h) l -> a ∈ l).
      { intros a Ha. apply elem_of_list_In, filter_In in Ha as [Ha _]. apply elem_of_list_In. exact Ha. }
      split; [|split].
      + rewrite O1, Ec, (Hmapf l) by auto. apply map_twin. intros a Ha. left. exact Ha.
      + rewrite O2, Em, (Hmapf _ Hsub). apply map_twin. intros a Ha. left. auto.
      + rewrite O3, Ed, map_length. reflexivity.
  Qed.
End IsoClone.
