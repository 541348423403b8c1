(** * Loading descriptions that differ in the order of their tags *)
From Coq Require Import String Sorted Lia.
From stdpp Require Import gmap strings sorting.
From Verif Require Import Scalar Geometry Joint Link Prog NodeM ChainM FuncsM IkM Api SpecNode SpecGraph SpecChain UrdfM SpecUrdf SpecIso SpecShuffle.

Lemma strong_unique (l l' : list nat) : StronglySorted lt l -> StronglySorted lt l' -> (forall a, a ∈ l <-> a ∈ l') -> l = l'.
Proof.
  revert l'. induction l as [|x l IH]; intros l' H H' E.
  - destruct l' as [|y l']; [reflexivity|]. exfalso. assert (y ∈ ([] : list nat)) as K by (apply E; left). inversion K.
  - destruct l' as [|y l']. { exfalso. assert (x ∈ ([] : list nat)) as K by (apply E; left). inversion K. }
    inversion H as [|? ? Hs Hf]; subst. inversion H' as [|? ? Hs' Hf']; subst. rewrite Forall_forall in Hf, Hf'.
    assert (x = y) as ->.
    { assert (Hx : x ∈ y :: l') by (apply E; left). assert (Hy : y ∈ x :: l) by (apply E; left).
      apply elem_of_cons in Hx as [Hx|Hx]; [exact Hx|]. apply elem_of_cons in Hy as [Hy|Hy]; [auto|].
      apply Hf' in Hx. apply Hf in Hy. lia. }
    f_equal. apply IH; [assumption..|]. intros a. specialize (E a). rewrite !elem_of_cons in E. split; intros Ha.
    + destruct (proj1 E (or_intror Ha)) as [-> |K]; [apply Hf in Ha; lia|exact K].
    + destruct (proj2 E (or_intror Ha)) as [-> |K]; [apply Hf' in Ha; lia|exact K].
Qed.
Lemma strong_map (f : nat -> nat) (l : list nat) : StronglySorted lt l -> (forall a b, a ∈ l -> b ∈ l -> a < b -> f a < f b) -> StronglySorted lt (map f l).
Proof.
  induction 1 as [|x l Hs IH Hf]; intros Hm; cbn; constructor.
  - apply IH. intros a b Ha Hb. apply Hm; right; assumption.
  - rewrite Forall_forall in *. intros y Hy. apply elem_of_list_fmap in Hy as (b & -> & Hb). apply Hm; [left|right; exact Hb|auto].
Qed.

Section Names.
  Context {S : Type}.
  Implicit Types (r : robot S).
  Lemma sh_declared r r' s : shuffled r r' -> declared r s <-> declared r' s.
  Proof. intros [H _]. unfold declared. setoid_rewrite H. reflexivity. Qed.
  Lemma sh_sym r r' : shuffled r r' -> shuffled r' r.
  Proof. intros [H H']. split; symmetry; assumption. Qed.
  Lemma sh_named r r' : shuffled r r' -> well_named r -> well_named r'.
  Proof. intros [H H'] [A B C]. split; [rewrite <- H|rewrite <- H'|rewrite <- H']; assumption. Qed.
  Lemma sh_known r r' : shuffled r r' -> mimics_known r -> mimics_known r'.
  Proof. intros [H H'] K j m Hj. rewrite <- H' in Hj. intros E. destruct (K j m Hj E) as (k & Hk & En). exists k. rewrite <- H'. auto. Qed.
  Lemma sh_free r r' l : shuffled r r' -> free_link r l <-> free_link r' l.
  Proof. intros [H H']. unfold free_link. setoid_rewrite H'. reflexivity. Qed.
  Lemma by_name r i k j j' : well_named r -> r_joints r !! i = Some j -> r_joints r !! k = Some j' -> uj_name j = uj_name j' -> i = k.
  Proof. intros [_ A _] Hi Hk E. apply (NoDup_lookup _ i k (uj_name j) A); rewrite list_lookup_fmap; [rewrite Hi|rewrite Hk, E]; reflexivity. Qed.
  Lemma by_child r i k j j' : well_named r -> r_joints r !! i = Some j -> r_joints r !! k = Some j' -> uj_child j = uj_child j' -> i = k.
  Proof. intros [_ _ A] Hi Hk E. apply (NoDup_lookup _ i k (uj_child j) A); rewrite list_lookup_fmap; [rewrite Hi|rewrite Hk, E]; reflexivity. Qed.
  Lemma by_link r l l' : well_named r -> l ∈ r_links r -> l' ∈ r_links r -> ul_name l = ul_name l' -> l = l'.
  Proof.
    intros [A _ _] Hl Hl' E. apply elem_of_list_lookup in Hl as [i Hi]. apply elem_of_list_lookup in Hl' as [k Hk].
    assert (i = k) as ->; [|congruence]. apply (NoDup_lookup _ i k (ul_name l) A); rewrite list_lookup_fmap; [rewrite Hi|rewrite Hk, E]; reflexivity.
  Qed.
  Lemma m_parent r r' i i' k k' : shuffled r r' -> matched r r' i i' -> matched r r' k k' -> parent_joint r i k -> parent_joint r' i' k'.
  Proof.
    intros H (j & Hi & Hi') (jk & Hk & Hk') (a & b & Ha & Hb & E & Hd). rewrite Hi in Ha. rewrite Hk in Hb. injection Ha as <-. injection Hb as <-.
    exists j, jk. repeat split; auto. apply (sh_declared _ _ _ H). exact Hd.
  Qed.
  Lemma m_mimics r r' i i' k k' m : matched r r' i i' -> matched r r' k k' -> mimics r i k m -> mimics r' i' k' m.
  Proof.
    intros (j & Hi & Hi') (jk & Hk & Hk') (a & b & Ha & Hb & E & Hd). rewrite Hi in Ha. rewrite Hk in Hb. injection Ha as <-. injection Hb as <-.
    exists j, jk. auto.
  Qed.
  Lemma m_sym r r' i i' : matched r r' i i' -> matched r' r i' i.
  Proof. intros (j & A & B). exists j. auto. Qed.
  Lemma m_ex r r' i : shuffled r r' -> i < length (r_joints r) -> exists i', matched r r' i i'.
  Proof.
    intros [_ H] Hi. destruct (lookup_lt_is_Some_2 _ _ Hi) as [j Hj]. assert (K : j ∈ r_joints r') by (rewrite <- H; eapply elem_of_list_lookup_2; eauto).
    apply elem_of_list_lookup in K as [i' K]. exists i', j. auto.
  Qed.
  Lemma m_fun r r' i i' i2 : well_named r' -> matched r r' i i' -> matched r r' i i2 -> i' = i2.
  Proof. intros Hw (j & A & B) (j2 & A2 & B2). rewrite A in A2. injection A2 as <-. eapply by_name; eauto. Qed.
  Lemma p_lt r i k : parent_joint r i k -> i < length (r_joints r) /\ k < length (r_joints r).
  Proof. intros (a & b & Ha & Hb & _). split; eapply lookup_lt_Some; eauto. Qed.
  Lemma m_no_parent r r' i i' : shuffled r r' -> matched r r' i i' -> (forall k, ~ parent_joint r i k) -> forall k, ~ parent_joint r' i' k.
  Proof.
    intros H Hm Hn k' Hk. pose proof (p_lt _ _ _ Hk) as [_ L]. destruct (m_ex r' r k' (sh_sym _ _ H) L) as [k Hmk].
    apply (Hn k). eapply m_parent; [apply sh_sym; exact H|apply m_sym; exact Hm|exact Hmk|exact Hk].
  Qed.
  Lemma p_fun r i k k' : well_named r -> parent_joint r i k -> parent_joint r i k' -> k = k'.
  Proof.
    intros Hw (a & b & Ha & Hb & E & _) (a' & b' & Ha' & Hb' & E' & _). rewrite Ha in Ha'. injection Ha' as <-. eapply by_child; [exact Hw|exact Hb|exact Hb'|congruence].
  Qed.
  Lemma sh_acyclic r r' : shuffled r r' -> well_named r -> acyclic r -> acyclic r'.
  Proof.
    intros H Hw Hac i' Hi.
    assert (K : forall a' b', tc (parent_joint r') a' b' -> forall a, matched r r' a a' -> exists b, matched r r' b b' /\ tc (parent_joint r) a b).
    { induction 1 as [a' b' Hp|a' c' b' Hp Ht IH]; intros a Ha; pose proof (p_lt _ _ _ Hp) as [_ L]; destruct (m_ex r' r _ (sh_sym _ _ H) L) as [c Hc];
        assert (P : parent_joint r a c) by (eapply m_parent; [apply sh_sym; exact H|apply m_sym; exact Ha|exact Hc|exact Hp]).
      - exists c. split; [apply m_sym; exact Hc|]. apply tc_once. exact P.
      - destruct (IH c (m_sym _ _ _ _ Hc)) as (b & Hb & Hcb). exists b. split; [exact Hb|]. eapply tc_l; eauto. }
    assert (L : i' < length (r_joints r')). { inversion Hi as [? ? Hp|? ? ? Hp _]; subst; apply (p_lt _ _ _ Hp). }
    destruct (m_ex r' r _ (sh_sym _ _ H) L) as [i Him]. destruct (K i' i' Hi i (m_sym _ _ _ _ Him)) as (b & Hb & Ht).
    apply (Hac i). assert (b = i) as <-; [|exact Ht]. eapply (m_fun r' r); [exact Hw|apply m_sym; exact Hb|exact Him].
  Qed.
End Names.

Section Twin.
  Context {S T : Type} `{SS : Scalar S} `{ST : Scalar T} (conv : S -> T).
  Variables (kids : bool) (r r' : robot S) (nx nx' : nat) (h h' h1 h1' : gmap nat (node T)) (f : nat -> nat).
  Hypothesis Hsh : shuffled r r'.
  Hypothesis Hw : well_named r.
  Hypothesis Hbase : one_base r.
  Hypothesis Hmk : kept r r' (mimic_siblings r).
  Hypothesis Hck : kids = true -> kept r r' (siblings r).
  Hypothesis HL : loaded conv r nx h h1.
  Hypothesis HL' : loaded conv r' nx' h' h1'.
  Hypothesis F0 : f nx = nx'.
  Hypothesis F1 : forall i i', matched r r' i i' -> f (Datatypes.S nx + i) = Datatypes.S nx' + i'.

  Lemma in_order (P P' : nat -> Prop) (rel : nat -> nat -> Prop) l l' :
    kept r r' rel -> (forall i k, P i -> P k -> rel i k) -> (forall i, P i -> i < length (r_joints r)) -> (forall i, P' i -> i < length (r_joints r')) ->
    (forall i i', matched r r' i i' -> P i <-> P' i') ->
    joints_in_order nx P l -> joints_in_order nx' P' l' -> Forall2 (twin_of (fun a => nx <= a) f) l l'.
  Proof.
    intros Hk Hr Hb Hb' Hp [Hs Hi] [Hs' Hi'].
    assert (E : l' = map f l).
    { apply strong_unique; [exact Hs'|apply strong_map; [exact Hs|]|].
      - intros a b Ha Hb2 Hlt. apply Hi in Ha as (i & -> & Pi). apply Hi in Hb2 as (k & -> & Pk).
        destruct (m_ex r r' i Hsh (Hb i Pi)) as [i' Mi]. destruct (m_ex r r' k Hsh (Hb k Pk)) as [k' Mk]. rewrite (F1 _ _ Mi), (F1 _ _ Mk).
        assert (i' < k'); [|lia]. apply (Hk i k i' k'); auto. lia.
      - intros a. rewrite Hi'. split.
        + intros (i' & -> & Pi). destruct (m_ex r' r i' (sh_sym _ _ Hsh) (Hb' i' Pi)) as [i Mi]. apply m_sym in Mi.
          apply elem_of_list_fmap. exists (Datatypes.S nx + i). split; [symmetry; apply F1, Mi|]. apply Hi. exists i. split; [reflexivity|]. apply (Hp i i' Mi), Pi.
        + intros Ha. apply elem_of_list_fmap in Ha as (b & -> & Hb2). apply Hi in Hb2 as (i & -> & Pi).
          destruct (m_ex r r' i Hsh (Hb i Pi)) as [i' Mi]. exists i'. split; [apply F1, Mi|]. apply (Hp i i' Mi), Pi. }
    subst l'. apply Forall2_fmap_r. apply Forall_Forall2_diag. apply Forall_forall. intros a Ha. apply Hi in Ha as (i & -> & _). split; [lia|reflexivity].
  Qed.

  Lemma twin_root n n' : h1 !! nx = Some n -> h1' !! nx' = Some n' -> node_twin kids (fun a => nx <= a) f n n'.
  Proof.
    intros Hn Hn'. destruct (ld_root _ _ _ _ _ HL) as (m & Em & [A B C (D1 & D2 & D3) G]). rewrite Hn in Em. injection Em as <-.
    destruct (ld_root _ _ _ _ _ HL') as (m & Em & [A' B' C' (D1' & D2' & D3') G']). rewrite Hn' in Em. injection Em as <-.
    split.
    - congruence.
    - destruct G as [(a & l & b & El & Fl & _ & ->)|[Gn ->]]; destruct G' as [(a' & l' & b' & El' & Fl' & _ & ->)|[Gn' ->]]; [| | |reflexivity].
      + do 2 f_equal. symmetry. apply Hbase; [rewrite El; set_solver|rewrite (proj1 Hsh), El'; set_solver|exact Fl|apply (sh_free _ _ _ Hsh), Fl'].
      + exfalso. apply (Gn' l); [rewrite <- (proj1 Hsh), El; set_solver|]. apply (sh_free _ _ _ Hsh), Fl.
      + exfalso. apply (Gn l'); [rewrite (proj1 Hsh), El'; set_solver|]. apply (sh_free _ _ _ Hsh), Fl'.
    - congruence.
    - rewrite B, B'. constructor.
    - rewrite D1, D1'. constructor.
    - rewrite D3, D3'. constructor.
    - intros Hkd. eapply (in_order _ _ (siblings r)); [exact (Hck Hkd)| | | | |exact C|exact C'].
      + intros i k [_ Hi] [_ Hk]. right. auto.
      + intros i [Hi _]. exact Hi.
      + intros i [Hi _]. exact Hi.
      + intros i i' M. split; intros [Hi Hno]; (split; [destruct M as (j & M1 & M2); eapply lookup_lt_Some; eauto|]).
        * eapply m_no_parent; eauto.
        * eapply m_no_parent; [apply sh_sym; exact Hsh|apply m_sym; exact M|exact Hno].
  Qed.

  Lemma mimic_fun (q : robot S) i k m k' m' : well_named q -> mimics q i k m -> mimics q i k' m' -> k = k' /\ m = m'.
  Proof.
    intros Hq (a & b & Ha & Hb & E & Hd) (a' & b' & Ha' & Hb' & E' & Hd'). rewrite Ha in Ha'. injection Ha' as <-. rewrite E in E'. injection E' as <-.
    split; [|reflexivity]. eapply by_name; [exact Hq|exact Hb|exact Hb'|congruence].
  Qed.
  Lemma mim_lt (q : robot S) i k m : mimics q i k m -> i < length (r_joints q) /\ k < length (r_joints q).
  Proof. intros (a & b & Ha & Hb & _). split; eapply lookup_lt_Some; eauto. Qed.

  Lemma twin_joint i i' n n' : matched r r' i i' -> h1 !! (Datatypes.S nx + i) = Some n -> h1' !! (Datatypes.S nx' + i') = Some n' ->
    node_twin kids (fun a => nx <= a) f n n'.
  Proof.
    intros M Hn Hn'. pose proof (sh_named _ _ Hsh Hw) as Hw'. pose proof M as (j & Hj & Hj').
    destruct (ld_joint _ _ _ _ _ HL i j Hj) as (m & Em & [A B C D E G]). rewrite Hn in Em. injection Em as <-.
    destruct (ld_joint _ _ _ _ _ HL' i' j Hj') as (m & Em & [A' B' C' D' E' G']). rewrite Hn' in Em. injection Em as <-.
    assert (Dm : (exists k k' mm, matched r r' k k' /\ n_mimic_parent n = Some (Datatypes.S nx + k) /\ n_mimic n = Some (mimic_from conv mm) /\
                  n_mimic_parent n' = Some (Datatypes.S nx' + k') /\ n_mimic n' = Some (mimic_from conv mm)) \/
                 n_mimic_parent n = None /\ n_mimic n = None /\ n_mimic_parent n' = None /\ n_mimic n' = None).
    { destruct D as [(k & mm & Mk & P1 & P2)|(U & P1 & P2)].
      - left. destruct (m_ex r r' k Hsh (proj2 (mim_lt _ _ _ _ Mk))) as [k' Mk']. exists k, k', mm. split; [exact Mk'|]. split; [exact P1|]. split; [exact P2|].
        pose proof (m_mimics _ _ _ _ _ _ _ M Mk' Mk) as K. destruct D' as [(k2 & m2 & Mk2 & P1' & P2')|(U & _)].
        + destruct (mimic_fun r' _ _ _ _ _ Hw' K Mk2) as [-> ->]. auto.
        + exfalso. destruct K as (a & b & Ha & _ & Ea & _). rewrite Hj' in Ha. injection Ha as <-. congruence.
      - right. destruct D' as [(k2 & m2 & (a & b & Ha & _ & Ea & _) & _)|(_ & P1' & P2')]; [|auto]. exfalso. rewrite Hj' in Ha. injection Ha as <-. congruence. }
    split.
    - congruence.
    - destruct G as [(l & Hl & El & ->)|[Nd ->]]; destruct G' as [(l' & Hl' & El' & ->)|[Nd' ->]]; [| | |reflexivity].
      + do 2 f_equal. symmetry. apply (by_link r); [exact Hw|exact Hl|rewrite (proj1 Hsh); exact Hl'|congruence].
      + exfalso. apply Nd'. apply (sh_declared _ _ _ Hsh). exists l. auto.
      + exfalso. apply Nd. apply (sh_declared _ _ _ Hsh). exists l'. auto.
    - destruct Dm as [(k & k' & mm & _ & _ & -> & _ & ->)|(_ & -> & _ & ->)]; reflexivity.
    - destruct B as [(k & Pk & ->)|[Hno ->]].
      + destruct (m_ex r r' k Hsh (proj2 (p_lt _ _ _ Pk))) as [k' Mk]. pose proof (m_parent _ _ _ _ _ _ Hsh M Mk Pk) as Pk'.
        destruct B' as [(k2 & Pk2 & ->)|[Hno' _]]; [|destruct (Hno' _ Pk')]. rewrite (p_fun _ _ _ _ Hw' Pk2 Pk'). constructor. split; [lia|]. symmetry. apply F1, Mk.
      + destruct B' as [(k2 & Pk2 & _)|[_ ->]]; [destruct (m_no_parent _ _ _ _ Hsh M Hno _ Pk2)|]. constructor. split; [lia|]. symmetry. exact F0.
    - destruct Dm as [(k & k' & mm & Mk & -> & _ & -> & _)|(-> & _ & -> & _)]; constructor. split; [lia|]. symmetry. apply F1, Mk.
    - eapply (in_order _ _ (mimic_siblings r)); [exact Hmk| | | | |exact E|exact E'].
      + intros a b [m1 H1] [m2 H2]. exists i, m1, m2. auto.
      + intros a [m1 H1]. apply (mim_lt _ _ _ _ H1).
      + intros a [m1 H1]. apply (mim_lt _ _ _ _ H1).
      + intros a a' Ma. split; intros [m1 H1]; exists m1; [eapply m_mimics; eauto|eapply m_mimics; [apply m_sym; exact Ma|apply m_sym; exact M|exact H1]].
    - intros Hkd. eapply (in_order _ _ (siblings r)); [exact (Hck Hkd)| | | | |exact C|exact C'].
      + intros a b H1 H2. left. exists i. auto.
      + intros a H1. apply (p_lt _ _ _ H1).
      + intros a H1. apply (p_lt _ _ _ H1).
      + intros a a' Ma. split; intros H1; [eapply m_parent; eauto|eapply m_parent; [apply sh_sym; exact Hsh|apply m_sym; exact Ma|apply m_sym; exact M|exact H1]].
  Qed.
End Twin.

(** the map between the nodes *)
Lemma shuffle_map {S} (r r' : robot S) nx nx' : shuffled r r' -> well_named r ->
  exists f : nat -> nat, f nx = nx' /\ (forall i i', matched r r' i i' -> f (Datatypes.S nx + i) = Datatypes.S nx' + i') /\
    (forall i, f (Datatypes.S nx + length (r_joints r) + i) = Datatypes.S nx' + length (r_joints r') + i) /\
    (forall a b, nx <= a -> nx <= b -> f a = f b -> a = b).
Proof.
  intros H Hw. pose proof (sh_named _ _ H Hw) as Hw'. pose proof (Permutation_length (proj2 H)) as Hlen.
  destruct (proj1 (Permutation_inj _ _) (proj2 H)) as (_ & g & Hg & Eg). 
  set (n := length (r_joints r)) in *.
  exists (fun a => if decide (a = nx) then nx' else if decide (a - Datatypes.S nx < n) then Datatypes.S nx' + g (a - Datatypes.S nx) else nx' + (a - nx)).
  assert (Gm : forall i i', matched r r' i i' -> g i = i').
  { intros i i' (j & A & B). eapply (by_name r'); [exact Hw'| |exact B|reflexivity]. rewrite <- Eg. exact A. }
  assert (Gl : forall i, i < n -> g i < n).
  { intros i Hi. rewrite Hlen. apply lookup_lt_is_Some. rewrite <- Eg. apply lookup_lt_is_Some. exact Hi. }
  split; [|split; [|split]].
  - rewrite decide_True; auto.
  - intros i i' M. rewrite decide_False by lia. replace (Datatypes.S nx + i - Datatypes.S nx) with i by lia.
    rewrite decide_True by (destruct M as (j & A & _); eapply lookup_lt_Some; eauto). rewrite (Gm i i' M). reflexivity.
  - intros i. rewrite decide_False by lia. rewrite decide_False by lia. lia.
  - intros a b Ha Hb. destruct (decide (a = nx)) as [-> |Na]; destruct (decide (b = nx)) as [-> |Nb]; auto.
    + intros E. destruct (decide _) as [Lb|Lb]; [|lia]. pose proof (Gl _ Lb). lia.
    + intros E. destruct (decide _) as [La|La]; [|lia]. pose proof (Gl _ La). lia.
    + destruct (decide (a - Datatypes.S nx < n)) as [La|La]; destruct (decide (b - Datatypes.S nx < n)) as [Lb|Lb]; intros E.
      * assert (g (a - Datatypes.S nx) = g (b - Datatypes.S nx)) as E2 by lia. apply Hg in E2. lia.
      * pose proof (Gl _ La). lia.
      * pose proof (Gl _ Lb). lia.
      * lia.
Qed.

Lemma shuffle_twin {S T} `{Scalar S} `{Scalar T} (conv : S -> T) kids (r r' : robot S) nx nx' (h h' h1 h1' : gmap nat (node T)) :
  shuffled r r' -> well_named r -> one_base r -> kept r r' (mimic_siblings r) -> (kids = true -> kept r r' (siblings r)) ->
  loaded conv r nx h h1 -> loaded conv r' nx' h' h1' ->
  exists f, f nx = nx' /\ (forall i i', matched r r' i i' -> f (Datatypes.S nx + i) = Datatypes.S nx' + i') /\
    (forall a b, nx <= a -> nx <= b -> f a = f b -> a = b) /\
    state_twin kids (fun a => nx <= a) f (quiet h1 (Datatypes.S nx + length (r_joints r))) (quiet h1' (Datatypes.S nx' + length (r_joints r'))).
Proof.
  intros Hs Hw Hb Hm Hc HL HL'. destruct (shuffle_map r r' nx nx' Hs Hw) as (f & F0 & F1 & F2 & Fi). exists f. split; [exact F0|]. split; [exact F1|]. split; [exact Fi|].
  split.
  - intros a Ha. cbn. destruct (decide (a = nx)) as [-> |Na].
    + rewrite F0. destruct (ld_root _ _ _ _ _ HL) as (n & En & _). destruct (ld_root _ _ _ _ _ HL') as (n' & En' & _). rewrite En, En'.
      apply (twin_root conv kids r r' nx nx' h h' h1 h1' f); auto.
    + destruct (decide (a - Datatypes.S nx < length (r_joints r))) as [La|La].
      * destruct (m_ex r r' _ Hs La) as [i' M]. replace a with (Datatypes.S nx + (a - Datatypes.S nx)) by lia. rewrite (F1 _ _ M). pose proof M as (j & A & B).
        destruct (ld_joint _ _ _ _ _ HL _ _ A) as (n & En & _). destruct (ld_joint _ _ _ _ _ HL' _ _ B) as (n' & En' & _). rewrite En, En'.
        apply (twin_joint conv kids r r' nx nx' h h' h1 h1' f Hs Hw Hm Hc HL HL' F0 F1 (a - Datatypes.S nx) i' n n' M En En').
      * replace a with (Datatypes.S nx + length (r_joints r) + (a - Datatypes.S nx - length (r_joints r))) by lia. rewrite F2.
        rewrite (ld_new _ _ _ _ _ HL) by lia. rewrite (ld_new _ _ _ _ _ HL') by lia. exact I.
  - intros a _. reflexivity.
  - intros a _. cbn. set_solver.
  - intros i. split; [cbn; lia|]. cbn [nxt quiet]. symmetry. apply F2.
Qed.
