(** * C80: constraints read from data *)
From Coq Require Import String List Permutation.
From stdpp Require Import gmap strings.
From Verif Require Import Scalar Geometry Joint Prog ChainM IkM SerdeM.
Local Open Scope string_scope.

(** the values that a list of entries gives to a name *)
Definition given (l : list (string * value)) (k : string) : list value :=
  map snd (List.filter (fun e => String.eqb (fst e) k) l).
(** a flag is true unless a single entry says otherwise; the names are none unless a single
    entry lists them *)
Definition says_flag (l : list (string * value)) (k : string) (b : bool) : Prop :=
  (given l k = [] /\ b = true) \/ given l k = [VBool b].
Definition says_names (l : list (string * value)) (ns : list string) : Prop :=
  (given l "ignored_joint_names" = [] /\ ns = []) \/ given l "ignored_joint_names" = [VSeq (map VStr ns)].

Local Ltac known := apply (bool_decide_unpack _); vm_compute; exact I.
Lemma as_strs_iff l ns : as_strs l = Some ns <-> l = map VStr ns.
Proof.
  revert ns. induction l as [|v l IH]; intros ns; cbn.
  - split; [intros [= <-]; reflexivity|]. destruct ns; [reflexivity|discriminate].
  - split.
    + destruct v; try discriminate. cbn. destruct (as_strs l) as [ss|] eqn:E; [|discriminate]. cbn. intros [= <-]. cbn. f_equal. apply IH. reflexivity.
    + destruct ns as [|n ns]; [discriminate|]. cbn. intros [= -> ->]. cbn. rewrite (proj2 (IH ns) eq_refl). reflexivity.
Qed.
Lemma as_names_iff v ns : as_names v = Some ns <-> v = VSeq (map VStr ns).
Proof.
  destruct v; cbn; try (split; intros H; discriminate H). rewrite as_strs_iff. split; [intros ->; reflexivity|intros [= H]; exact H].
Qed.

(** what a name will have after the entries [l], when it has [o] before *)
Definition after {A} (typed : value -> option A) (o : option A) (vs : list value) (o' : option A) : Prop :=
  (vs = [] /\ o' = o) \/ (o = None /\ exists v, vs = [v] /\ o' = typed v /\ is_Some o').

Lemma given_cons l k v k' : given ((k, v) :: l) k' = if String.eqb k k' then v :: given l k' else given l k'.
Proof. unfold given. cbn. destruct (String.eqb k k'); reflexivity. Qed.

Lemma visit_iff l st st' :
  visit_map l st = Some st' <->
  (forall k, k ∈ flag_names -> after as_bool (st.1 !! k) (given l k) (st'.1 !! k)) /\
  (forall k, k ∉ flag_names -> st'.1 !! k = st.1 !! k) /\
  after as_names (st.2 !! names_field) (given l names_field) (st'.2 !! names_field) /\
  (forall k, k <> names_field -> st'.2 !! k = st.2 !! k).
Proof.
  revert st. induction l as [|[k v] l IH]; intros st; cbn [visit_map].
  - split.
    + intros [= <-]. unfold after, given. cbn. split; [|split; [|split]]; auto.
    + intros (H1 & H2 & H3 & H4). f_equal. destruct st as [f n], st' as [f' n']. cbn in *. f_equal.
      * apply map_eq. intros k. destruct (decide (k ∈ flag_names)) as [Hk|Hk]; [|symmetry; auto]. destruct (H1 k Hk) as [[_ E]|[_ (v & E & _)]]; [auto|discriminate].
      * apply map_eq. intros k. destruct (decide (k = names_field)) as [->|Hk]; [|symmetry; auto]. destruct H3 as [[_ E]|[_ (v & E & _)]]; [auto|discriminate].
  - assert (Hne : names_field ∉ flag_names) by known.
    destruct (decide (k ∈ flag_names)) as [Hk|Hk]; [|destruct (decide (k = names_field)) as [->|Hkn]].
    + assert (Ekn : String.eqb k names_field = false) by (apply String.eqb_neq; intros ->; contradiction).
      destruct (st.1 !! k) as [b0|] eqn:E0.
      { split; [discriminate|]. intros (H1 & _). destruct (H1 k Hk) as [[E _]|[E _]]; [|congruence].
        rewrite given_cons, String.eqb_refl in E. discriminate. }
      destruct (as_bool v) as [b|] eqn:Ev; cbn [mbind option_bind].
      2:{ split; [discriminate|]. intros (H1 & _). destruct (H1 k Hk) as [[E _]|[_ (v' & E & E1 & E2)]]; rewrite given_cons, String.eqb_refl in E; [discriminate|].
          injection E as -> _. rewrite E1, Ev in E2. destruct E2; discriminate. }
      rewrite IH. cbn [fst snd]. split; intros (H1 & H2 & H3 & H4).
      * split; [|split; [|split]]; auto.
        -- intros k' Hk'. rewrite given_cons. destruct (String.eqb_spec k k') as [<-|Hd].
           ++ specialize (H1 k Hk). rewrite lookup_insert in H1. destruct H1 as [[E1 E2]|[E _]]; [|discriminate].
              right. split; [exact E0|]. exists v. split; [rewrite E1; reflexivity|]. split; [congruence|rewrite E2; eauto].
           ++ specialize (H1 k' Hk'). rewrite lookup_insert_ne in H1 by exact Hd. exact H1.
        -- intros k' Hk'. rewrite H2 by exact Hk'. apply lookup_insert_ne. congruence.
        -- rewrite given_cons, Ekn. exact H3.
      * split; [|split; [|split]]; auto.
        -- intros k' Hk'. specialize (H1 k' Hk'). rewrite given_cons in H1. destruct (String.eqb_spec k k') as [Heq|Hd]; [subst k'|].
           ++ rewrite lookup_insert. destruct H1 as [[E _]|[_ (v' & E & E1 & _)]]; [discriminate|]. injection E as -> E. left. split; [exact E|congruence].
           ++ rewrite lookup_insert_ne by exact Hd. exact H1.
        -- intros k' Hk'. rewrite H2 by exact Hk'. symmetry. apply lookup_insert_ne. congruence.
        -- rewrite given_cons, Ekn in H3. exact H3.
    + destruct (st.2 !! names_field) as [b0|] eqn:E0.
      { split; [discriminate|]. intros (_ & _ & H1 & _). destruct H1 as [[E _]|[E _]]; [|congruence].
        rewrite given_cons, String.eqb_refl in E. discriminate. }
      destruct (as_names v) as [b|] eqn:Ev; cbn [mbind option_bind].
      2:{ split; [discriminate|]. intros (_ & _ & H1 & _). destruct H1 as [[E _]|[_ (v' & E & E1 & E2)]]; rewrite given_cons, String.eqb_refl in E; [discriminate|].
          injection E as -> _. rewrite E1, Ev in E2. destruct E2; discriminate. }
      assert (Ef : forall k', k' ∈ flag_names -> given ((names_field, v) :: l) k' = given l k').
      { intros k' Hk'. rewrite given_cons. destruct (String.eqb_spec names_field k') as [<-|_]; [contradiction|reflexivity]. }
      rewrite IH. cbn [fst snd]. rewrite lookup_insert. split; intros (H1 & H2 & H3 & H4).
      * split; [|split; [|split]]; auto.
        -- intros k' Hk'. rewrite Ef by exact Hk'. auto.
        -- rewrite given_cons, String.eqb_refl. destruct H3 as [[E1 E2]|[E _]]; [|discriminate].
           right. split; [reflexivity|]. exists v. split; [rewrite E1; reflexivity|]. split; [congruence|rewrite E2; eauto].
        -- intros k' Hk'. rewrite H4 by exact Hk'. apply lookup_insert_ne. congruence.
      * split; [|split; [|split]]; auto.
        -- intros k' Hk'. rewrite <- Ef by exact Hk'. auto.
        -- rewrite given_cons, String.eqb_refl in H3. destruct H3 as [[E _]|[_ (v' & E & E1 & _)]]; [discriminate|]. injection E as -> E. left. split; [exact E|congruence].
        -- intros k' Hk'. rewrite H4 by exact Hk'. symmetry. apply lookup_insert_ne. congruence.
    + rewrite IH. assert (Eg : forall k', k' ∈ flag_names \/ k' = names_field -> given ((k, v) :: l) k' = given l k').
      { intros k' Hk'. rewrite given_cons. destruct (String.eqb_spec k k') as [<-|_]; [destruct Hk'; contradiction|reflexivity]. }
      split; intros (H1 & H2 & H3 & H4); (split; [|split; [|split]]); auto.
      * intros k' Hk'. rewrite Eg by auto. auto.
      * rewrite Eg by auto. exact H3.
      * intros k' Hk'. rewrite <- Eg by auto. auto.
      * rewrite <- Eg by auto. exact H3.
Qed.

(** C80, data with field names: reading succeeds with [c] exactly when each field has at most
    one entry, of the right type, and [c] holds what the entries say, a flag without entry being
    true and the ignored joints without entry being none.  Entries with other names do not
    matter. *)
Theorem C80_reads l c :
  deserialize (VMap l) = Some c <->
  says_flag l "position_x" (position_x c) /\ says_flag l "position_y" (position_y c) /\ says_flag l "position_z" (position_z c) /\
  says_flag l "rotation_x" (rotation_x c) /\ says_flag l "rotation_y" (rotation_y c) /\ says_flag l "rotation_z" (rotation_z c) /\
  says_names l (ignored_joint_names c).
Proof.
  assert (F : forall k o b, after as_bool None (given l k) o -> default default_true o = b -> says_flag l k b).
  { intros k o b [[E ->]|[_ (v & E & E1 & [b' E2])]] <-; [left; auto|]. right. rewrite E, E2. rewrite E2 in E1. destruct v; try discriminate. cbn in E1. injection E1 as ->. reflexivity. }
  cbn [deserialize]. split.
  - destruct (visit_map l (∅, ∅)) as [st|] eqn:E; [|discriminate]. cbn [fmap option_fmap option_map]. intros [= <-].
    apply visit_iff in E as (H1 & _ & H3 & _). cbn [fst snd] in *.
    assert (H1' : forall k, k ∈ flag_names -> after as_bool None (given l k) (st.1 !! k)) by (intros k Hk; specialize (H1 k Hk); rewrite lookup_empty in H1; exact H1).
    unfold from_seen. cbn [position_x position_y position_z rotation_x rotation_y rotation_z ignored_joint_names].
    do 6 (split; [eapply F; [apply H1'; known|reflexivity]|]).
    rewrite lookup_empty in H3. destruct H3 as [[E ->]|[_ (v & E & E1 & [ns E2])]]; [left; auto|]. right. change "ignored_joint_names" with names_field. rewrite E, E2. cbn. rewrite E2 in E1. symmetry in E1. apply as_names_iff in E1. rewrite E1. reflexivity.
  - intros H.
    set (pick := fun k => match given l k with [VBool b] => Some b | _ => None end).
    set (fm := omap pick (list_to_map (map (fun k => (k, k)) flag_names) : gmap string string)).
    set (nm := match given l names_field with [v] => match as_names v with Some ns => {[names_field := ns]} | None => ∅ end | _ => ∅ end : gmap string (list string)).
    assert (Hfm : forall k, k ∈ flag_names -> fm !! k = pick k).
    { intros k Hk. unfold fm. rewrite lookup_omap. assert ((list_to_map (map (fun k => (k, k)) flag_names) : gmap string string) !! k = Some k) as ->; [|reflexivity].
      apply elem_of_list_to_map; [rewrite map_map; cbn; known|]. apply elem_of_list_fmap. eauto. }
    assert (Hfn : forall k, k ∉ flag_names -> fm !! k = None).
    { intros k Hk. unfold fm. rewrite lookup_omap. assert ((list_to_map (map (fun k => (k, k)) flag_names) : gmap string string) !! k = None) as ->; [|reflexivity].
      apply not_elem_of_list_to_map. rewrite map_map, map_id. exact Hk. }
    assert (E : visit_map l (∅, ∅) = Some (fm, nm)).
    { apply visit_iff. cbn [fst snd]. rewrite !lookup_empty.
      assert (G : forall k b, k ∈ flag_names -> says_flag l k b -> after as_bool None (given l k) (fm !! k)).
      { intros k b Hk Hs. rewrite Hfm by exact Hk. unfold pick. destruct Hs as [[-> _]| ->]; [left; auto|right; split; [auto|eexists; split; [reflexivity|]; split; [reflexivity|eauto]]]. }
      destruct H as (A1 & A2 & A3 & A4 & A5 & A6 & A7). split; [|split; [|split]].
      - intros k Hk. rewrite lookup_empty. pose proof Hk as Hk'. unfold flag_names in Hk'. rewrite !elem_of_cons, elem_of_nil in Hk'.
        destruct Hk' as [-> |[-> |[-> |[-> |[-> |[-> |[]]]]]]]; eapply G; eauto.
      - intros k Hk. rewrite lookup_empty. auto.
      - unfold nm, says_names in *. change "ignored_joint_names" with names_field in A7. destruct A7 as [[-> _]| ->]; [left; rewrite lookup_empty; auto|].
        right. split; [reflexivity|]. eexists. split; [reflexivity|]. rewrite (proj2 (as_names_iff _ _) eq_refl), lookup_singleton. split; [reflexivity|eauto].
      - intros k Hk. rewrite lookup_empty. unfold nm. destruct (given l names_field) as [|v [|]]; try apply lookup_empty. destruct (as_names v); [apply lookup_singleton_ne; congruence|apply lookup_empty]. }
    rewrite E. cbn [fmap option_fmap option_map]. f_equal. unfold from_seen. cbn [fst snd].
    assert (G : forall k b, k ∈ flag_names -> says_flag l k b -> default default_true (fm !! k) = b).
    { intros k b Hk Hs. rewrite Hfm by exact Hk. unfold pick. destruct Hs as [[-> ->]| ->]; reflexivity. }
    destruct H as (A1 & A2 & A3 & A4 & A5 & A6 & A7). destruct c as [px py pz rx ry rz ns]. cbn in A1, A2, A3, A4, A5, A6, A7.
    f_equal; try (apply G; [known|assumption]).
    unfold nm, says_names in *. change "ignored_joint_names" with names_field in A7. destruct A7 as [[-> ->]| ->]; [rewrite lookup_empty; reflexivity|].
    rewrite (proj2 (as_names_iff _ _) eq_refl), lookup_singleton. reflexivity.
Qed.
Print Assumptions C80_reads.

(** C80: what is written is read back *)
Theorem C80_round_trip c : deserialize (serialize c) = Some c.
Proof. apply C80_reads. unfold says_flag, says_names, given. cbn. destruct c; cbn. intuition. Qed.
Print Assumptions C80_round_trip.

(** C80: the order of the entries does not matter *)
Lemma given_perm l l' k : Permutation l l' -> Permutation (given l k) (given l' k).
Proof.
  intros H. unfold given. apply Permutation_map. induction H as [|x l1 l2 H IH|x y l0|l1 l2 l3 H1 IH1 H2 IH2]; cbn.
  - constructor.
  - destruct (String.eqb _ _); [constructor|]; exact IH.
  - destruct (String.eqb (fst y) k), (String.eqb (fst x) k); try constructor; apply Permutation_refl.
  - eapply perm_trans; eassumption.
Qed.
Lemma reads_perm l l' c : Permutation l l' -> deserialize (VMap l) = Some c -> deserialize (VMap l') = Some c.
Proof.
  intros Hp H. apply C80_reads in H. apply C80_reads.
  assert (F : forall k b, says_flag l k b -> says_flag l' k b).
  { intros k b Hs. pose proof (given_perm l l' k Hp) as Hg. destruct Hs as [[E ->]|E]; rewrite E in Hg; [left; split; [apply Permutation_nil, Hg|reflexivity]|right; apply Permutation_length_1_inv, Hg]. }
  destruct H as (A1 & A2 & A3 & A4 & A5 & A6 & A7). do 6 (split; [apply F; assumption|]).
  pose proof (given_perm l l' "ignored_joint_names" Hp) as Hg. destruct A7 as [[E E']|E]; rewrite E in Hg; [left; split; [apply Permutation_nil, Hg|exact E']|right; apply Permutation_length_1_inv, Hg].
Qed.
Theorem C80_order l l' : Permutation l l' -> deserialize (VMap l) = deserialize (VMap l').
Proof.
  intros H. destruct (deserialize (VMap l)) as [c|] eqn:E; [symmetry; eapply reads_perm; eassumption|].
  destruct (deserialize (VMap l')) as [c|] eqn:E'; [|reflexivity]. apply Permutation_sym in H. rewrite (reads_perm _ _ _ H E') in E. discriminate.
Qed.
Print Assumptions C80_order.

(** C80, data without field names: the elements are the fields in order, the fields that are
    left over have their default *)
Definition listed (c : constraints) : list value :=
  [VBool (position_x c); VBool (position_y c); VBool (position_z c); VBool (rotation_x c); VBool (rotation_y c); VBool (rotation_z c);
   VSeq (map VStr (ignored_joint_names c))].
Definition nothing_said : list value := [VBool true; VBool true; VBool true; VBool true; VBool true; VBool true; VSeq []].
Lemma as_bool_iff v b : as_bool v = Some b <-> v = VBool b.
Proof. destruct v; cbn; split; congruence. Qed.
Theorem C80_listed l c : deserialize (VSeq l) = Some c <-> listed c = (l ++ drop (List.length l) nothing_said)%list.
Proof.
  cbn [deserialize]. destruct c as [px py pz rx ry rz ns]. unfold listed, nothing_said. cbn [position_x position_y position_z rotation_x rotation_y rotation_z ignored_joint_names].
  assert (N : VSeq (map VStr ns) = VSeq [] <-> ns = []) by (destruct ns; cbn; split; congruence).
  do 7 (destruct l as [|?v l]; [unfold visit_seq; cbn; repeat match goal with |- context [as_bool ?v] => destruct v; cbn end; try (split; congruence);
     split; [intros [=]; subst; reflexivity|intros [=]; subst; repeat f_equal; symmetry; destruct ns; [reflexivity|discriminate]]|]).
  unfold visit_seq. cbn. repeat match goal with |- context [as_bool ?v] => destruct v; cbn end; try (split; congruence).
  destruct (as_names v5) as [ns'|] eqn:E; cbn.
  - apply as_names_iff in E. subst v5. destruct l; cbn; [|split; congruence]. split.
    + intros [=]; subst; reflexivity.
    + intros [=]; subst. repeat f_equal. match goal with H : map VStr ns = map VStr ns' |- _ => revert ns' H end. clear. induction ns as [|n ns IH]; intros [|n' ns'] [=]; [reflexivity|]. subst. f_equal. auto.
  - split; [discriminate|]. intros [=]; subst. rewrite (proj2 (as_names_iff _ _) eq_refl) in E. discriminate.
Qed.
Print Assumptions C80_listed.

(** C80: data that says nothing is [Constraints::default()]: solving under it is [solve] *)
Theorem C80_default {T} `{Sc : Scalar T} ovf la (s : solver T) arm target :
  (forall v, v = VMap [] \/ v = VSeq [] ->
    exists c, deserialize v = Some c /\ solve_with_constraints ovf la s arm target c = solve ovf la s arm target).
Proof. intros v [-> | ->]; exists default_constraints; split; reflexivity. Qed.
Print Assumptions C80_default.

(** position only, with an unknown field and a joint to ignore *)
Example C80_case :
  deserialize (VMap [("rotation_z", VBool false); ("comment", VNull); ("ignored_joint_names", VSeq [VStr "j1"]); ("rotation_x", VBool false); ("rotation_y", VBool false)])
    = Some (Constraints true true true false false false ["j1"]) /\
  deserialize (VMap [("rotation_z", VBool false); ("rotation_z", VBool false)]) = None /\
  deserialize (VMap [("rotation_z", VNum 0)]) = None /\
  deserialize (VSeq [VBool false; VBool true]) = Some (Constraints false true true true true true []).
Proof. split; [|split; [|split]]; vm_compute; reflexivity. Qed.
