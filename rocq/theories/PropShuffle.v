(** * C96: the order of the tags in the robot description *)
From Coq Require Import String Lia ZArith Floats.SpecFloat.
From stdpp Require Import gmap strings.
From Verif Require Import Scalar ScalarF Geometry Joint Link Prog NodeM ChainM FuncsM IkM Api SpecNode SpecGraph SpecChain UrdfM SpecUrdf SpecIso IsoProofs PropIso Ex PropUrdf
  SpecShuffle ShuffleProofs.

(** C96.  Take two descriptions that list the same links and the same joints, each in its own order, with one base link
    and with the joints that mimic the same joint in the same order.  Load both, anywhere.  The nodes of the
    same joints correspond, and clients that make the same calls on them get the same answers: the same values bit by bit,
    the same errors, the same panics.  Without [kids] the calls do not read child lists.  With [kids] they may, and then the
    joints that hang side by side have to be in the same order too.  Any scalar type. *)
Theorem C96_shuffled {S T} `{Scalar S} `{Scalar T} (conv : S -> T) kids (t : nat) (r r' : robot S) (h h' : gmap nat (node T)) nx nx' fuel :
  heap_ok h nx -> heap_ok h' nx' -> shuffled r r' -> one_base r -> kept r r' (mimic_siblings r) -> (kids = true -> kept r r' (siblings r)) ->
  well_named r -> joints_convert conv (r_joints r) -> mimics_known r -> acyclic r -> Datatypes.S (length (r_joints r)) < fuel ->
  exists c c' s s' f,
    run t (chain_from_robot conv fuel r) (quiet h nx) = Done c s /\ run t (chain_from_robot conv fuel r') (quiet h' nx') = Done c' s' /\
    f nx = nx' /\ (forall i i', matched r r' i i' -> f (Datatypes.S nx + i) = Datatypes.S nx' + i') /\
    let D a := nx <= a in
    forall A (cl cl' : client T A), client_twin kids D f cl cl' -> outcome_twin kids D f eq (run t (denote cl) s) (run t (denote cl') s').
Proof.
  intros Hok Hok' Hs Hb Hm Hc Hw Hcv Hk Hac Hf.
  assert (Hcv' : joints_convert conv (r_joints r')) by (intros j Hj; apply Hcv; rewrite (proj2 Hs); exact Hj).
  assert (Hf' : Datatypes.S (length (r_joints r')) < fuel) by (rewrite <- (Permutation_length (proj2 Hs)); exact Hf).
  destruct (C44_tree conv t r h nx fuel Hok Hw Hcv Hk Hac Hf) as (c & h1 & R & _ & _ & _ & _ & HL & _).
  destruct (C44_tree conv t r' h' nx' fuel Hok' (sh_named _ _ Hs Hw) Hcv' (sh_known _ _ Hs Hk) (sh_acyclic _ _ Hs Hw Hac) Hf') as (c' & h1' & R' & _ & _ & _ & _ & HL' & _).
  destruct (shuffle_twin conv kids r r' nx nx' h h' h1 h1' Hs Hw Hb Hm Hc HL HL') as (f & F0 & F1 & Fi & St).
  exists c, c', (quiet h1 (Datatypes.S nx + length (r_joints r))), (quiet h1' (Datatypes.S nx' + length (r_joints r'))), f.
  split; [exact R|]. split; [exact R'|]. split; [exact F0|]. split; [exact F1|].
  intros D A cl cl' Hcl. apply (C86_twins kids D f t cl cl'); [exact Fi|exact St|exact Hcl].
Qed.
Print Assumptions C96_shuffled.

(** take the arm that ends at a joint, set its positions, solve, and ask for positions and transforms *)
Definition reach {T} `{Scalar T} fuel (a : nat) (ps : list T) ovf la sv target cs : client T _ :=
  Call (KFromEnd fuel a) (fun arm => Call (KSetPositions arm ps) (fun e => Call (KSolveWith ovf la sv arm target cs) (fun e' =>
    Call (KPositions arm) (fun qs => Call (KUpdateTransforms arm) (fun ws => Finish (e, e', qs, ws)))))).
Lemma chain_twin_to (D : nat -> Prop) f c c' : chain_twin D f c c' -> c' = chain_to f c /\ forall a, a ∈ chain_handles c -> D a.
Proof.
  assert (K : forall l l', Forall2 (twin_of D f) l l' -> l' = map f l /\ forall a, a ∈ l -> D a).
  { induction 1 as [|x y l l' [Hx ->] _ [-> IH]]; split; [reflexivity|intros a Ha; inversion Ha|reflexivity|].
    intros a Ha. apply elem_of_cons in Ha as [-> |Ha]; auto. }
  destruct c, c'. intros (H1 & H2 & H3). cbn in *. apply K in H1 as [-> D1]. apply K in H2 as [-> D2]. subst. split; [reflexivity|].
  intros a Ha. unfold chain_handles in Ha. apply elem_of_app in Ha as [Ha|Ha]; auto.
Qed.
(** C96.  So inverse kinematics on an arm does not depend on the order of the tags: from the same joint position vector
    the solver gives the same verdict, the same joint position vector and the same transforms. *)
Theorem C96_reach {S T} `{Scalar S} `{Scalar T} (conv : S -> T) (t : nat) (r r' : robot S) (h h' : gmap nat (node T)) nx nx' fuel :
  heap_ok h nx -> heap_ok h' nx' -> shuffled r r' -> one_base r -> kept r r' (mimic_siblings r) ->
  well_named r -> joints_convert conv (r_joints r) -> mimics_known r -> acyclic r -> Datatypes.S (length (r_joints r)) < fuel ->
  exists c c' s s',
    run t (chain_from_robot conv fuel r) (quiet h nx) = Done c s /\ run t (chain_from_robot conv fuel r') (quiet h' nx') = Done c' s' /\
    forall i i' fu ps ovf la sv target cs x s1, matched r r' i i' ->
      run t (denote (reach fu (Datatypes.S nx + i) ps ovf la sv target cs)) s = Done x s1 ->
      exists s1', run t (denote (reach fu (Datatypes.S nx' + i') ps ovf la sv target cs)) s' = Done x s1'.
Proof.
  intros Hok Hok' Hs Hb Hm Hw Hcv Hk Hac Hf.
  destruct (C96_shuffled conv false t r r' h h' nx nx' fuel Hok Hok' Hs Hb Hm) as (c & c' & s & s' & f & R & R' & F0 & F1 & Ht); [discriminate|assumption..|].
  exists c, c', s, s'. split; [exact R|]. split; [exact R'|]. intros i i' fu ps ovf la sv target cs x s1 M Hx.
  assert (Hcl : client_twin false (fun a => nx <= a) f (reach fu (Datatypes.S nx + i) ps ovf la sv target cs) (reach fu (Datatypes.S nx' + i') ps ovf la sv target cs)).
  { rewrite <- (F1 i i' M). unfold reach.
    apply (twin_call false _ f (KFromEnd fu (Datatypes.S nx + i))); [discriminate| |].
    { cbn. intros a Ha. apply elem_of_list_singleton in Ha as ->. lia. }
    intros arm arm' Ha. cbn in Ha. apply chain_twin_to in Ha as [-> Hd].
    apply (twin_call false _ f (KSetPositions arm ps)); [discriminate|exact Hd|]. intros e ? <-.
    apply (twin_call false _ f (KSolveWith ovf la sv arm target cs)); [discriminate|exact Hd|]. intros e' ? <-.
    apply (twin_call false _ f (KPositions arm)); [discriminate|exact Hd|]. intros qs ? <-.
    apply (twin_call false _ f (KUpdateTransforms arm)); [discriminate|exact Hd|]. intros ws ? <-. apply twin_finish. }
  pose proof (Ht _ _ _ Hcl) as K. rewrite Hx in K. destruct (run t (denote (reach fu (Datatypes.S nx' + i') _ _ _ _ _ _)) s') as [y s1'| | | |]; try contradiction.
  destruct K as [<- _]. eauto.
Qed.
Print Assumptions C96_reach.

(** ** A case: the robot of C44 and the same tags listed backwards *)
Definition back : robot spec_float := Robot (rev (r_links arm)) (rev (r_joints arm)).
Lemma arm_back : shuffled arm back.
Proof. split; cbn [r_links r_joints back]; apply Permutation_rev. Qed.
Lemma arm_base : one_base arm.
Proof.
  assert (K : forall l, l ∈ r_links arm -> free_link arm l -> l = ulink_ "base").
  { intros l Hl Hf. cbn in Hl. rewrite !elem_of_cons in Hl. destruct Hl as [-> |[-> |[-> |[-> |[-> |Hl]]]]]; [reflexivity|..|inversion Hl]; exfalso;
      [apply (Hf (ujoint_ "j1" URevolute "base" "l1" (-3) 3 None))|apply (Hf (ujoint_ "j2" UPrismatic "l1" "l2" 0 0 None))
      |apply (Hf (ujoint_ "j3" UContinuous "l1" "l3" (-5) 5 (Some (UMimic "j1" (Some (f 2)) None))))|apply (Hf (ujoint_ "j4" UFixed "base" "l4" 0 0 None))];
      first [reflexivity|unfold arm; cbn [r_joints]; rewrite !elem_of_cons; auto 6]. }
  intros l l' H1 H2 F1 F2. rewrite (K l H1 F1), (K l' H2 F2). reflexivity.
Qed.
(** only one joint mimics *)
Lemma arm_mimics i p m : mimics arm i p m -> i = 2.
Proof. intros (a & b & Ha & _ & E & _). destruct i as [|[|[|[|i]]]]; cbn in Ha; simplify_eq; cbn in E; try discriminate. reflexivity. Qed.
Example C96_case : shuffled arm back /\ one_base arm /\ kept arm back (mimic_siblings arm) /\ well_named arm /\
  joints_convert id_conv (r_joints arm) /\ mimics_known arm /\ acyclic arm /\ matched arm back 2 1 /\ matched arm back 1 2.
Proof.
  split; [exact arm_back|]. split; [exact arm_base|]. split.
  { intros i k i' k' _ _ (p & m & m' & H1 & H2) Hlt. apply arm_mimics in H1, H2. lia. }
  split; [exact arm_named|]. split; [exact arm_converts|]. split; [exact arm_known|]. split; [exact (in_order_acyclic _ arm_order)|].
  split; eexists; split; reflexivity.
Qed.
Example C96_case_reach : exists c c' s s',
  run 0 (chain_from_robot id_conv 9 arm) (quiet ∅ 0) = Done c s /\ run 0 (chain_from_robot id_conv 9 back) (quiet ∅ 0) = Done c' s' /\
  forall ps ovf la sv target cs x s1, run 0 (denote (reach 9 3 ps ovf la sv target cs)) s = Done x s1 ->
    exists s1', run 0 (denote (reach 9 2 ps ovf la sv target cs)) s' = Done x s1'.
Proof.
  destruct C96_case as (K1 & K2 & K3 & K4 & K5 & K6 & K7 & K8 & _).
  destruct (C96_reach id_conv 0 arm back ∅ ∅ 0 0 9 empty_heap_ok empty_heap_ok K1 K2 K3 K4 K5 K6 K7) as (c & c' & s & s' & R & R' & E); [cbn; lia|].
  exists c, c', s, s'. split; [exact R|]. split; [exact R'|]. intros. eapply (E 2 1); eauto.
Qed.

(** with child lists: the joint that hangs from j1 listed before it *)
Definition early : robot spec_float := Robot (r_links arm) (match r_joints arm with [a; b; c; d] => [b; a; c; d] | _ => [] end).
Lemma arm_parents i k : parent_joint arm i k -> (i = 1 \/ i = 2) /\ k = 0.
Proof. intros (a & b & Ha & Hb & E & _). destruct i as [|[|[|[|i]]]], k as [|[|[|[|k]]]]; cbn in Ha, Hb; simplify_eq; cbn in E; try discriminate; auto. Qed.
Lemma early_matched i i' : matched arm early i i' -> i = 0 /\ i' = 1 \/ i = 1 /\ i' = 0 \/ i = 2 /\ i' = 2 \/ i = 3 /\ i' = 3.
Proof.
  intros (j & A & B). destruct i as [|[|[|[|i]]]], i' as [|[|[|[|i']]]]; cbn in A, B; simplify_eq; auto 6.
Qed.
Example C96_case_children : shuffled arm early /\ kept arm early (mimic_siblings arm) /\ kept arm early (siblings arm).
Proof.
  split; [split; [reflexivity|apply perm_swap]|]. split.
  { intros i k i' k' _ _ (p & m & m' & H1 & H2) Hlt. apply arm_mimics in H1, H2. lia. }
  intros i k i' k' M1 M2 Hs Hlt. apply early_matched in M1, M2.
  assert (N : i = 0 -> k = 1 -> False); [|lia]. intros -> ->. destruct Hs as [(p & H1 & _)|[_ H2]].
  - apply arm_parents in H1. lia.
  - apply (H2 0). exists (ujoint_ "j2" UPrismatic "l1" "l2" 0 0 None), (ujoint_ "j1" URevolute "base" "l1" (-3) 3 None).
    split; [reflexivity|]. split; [reflexivity|]. split; [reflexivity|]. exists (ulink_ "l1"). split; [cbn; rewrite !elem_of_cons; auto|reflexivity].
Qed.

(** C96.  The joint position vector of the whole robot does depend on the order: the same tags in another order, and the
    numbers go to other joints. *)
Definition movable_names (o : outcome spec_float chain) : option (list (option string)) :=
  match o with Done c s => Some (map (fun a => (fun n => j_name (n_joint n)) <$> heap s !! a) (c_movable c)) | _ => None end.
Theorem C96_vector_order_refuted : ~ forall r r' : robot spec_float,
  shuffled r r' -> one_base r -> kept r r' (mimic_siblings r) -> well_named r -> joints_convert id_conv (r_joints r) -> mimics_known r -> acyclic r ->
  movable_names (run 0 (chain_from_robot id_conv 9 r) (quiet ∅ 0)) = movable_names (run 0 (chain_from_robot id_conv 9 r') (quiet ∅ 0)).
Proof.
  intros E. destruct C96_case as (K1 & K2 & K3 & K4 & K5 & K6 & K7 & _). specialize (E arm back K1 K2 K3 K4 K5 K6 K7). vm_compute in E. discriminate E.
Qed.
Print Assumptions C96_vector_order_refuted.
(** C96.  With two links that are nobody's child the root carries the last of them, so which link is kept depends on the order. *)
Definition root_link_name (o : outcome spec_float chain) : option string :=
  match o with Done c s => n ← heap s !! 0; l_name <$> n_link n | _ => None end.
Theorem C96_base_refuted : ~ forall r r' : robot spec_float,
  shuffled r r' -> kept r r' (mimic_siblings r) -> well_named r -> joints_convert id_conv (r_joints r) -> mimics_known r -> acyclic r ->
  root_link_name (run 0 (chain_from_robot id_conv 9 r) (quiet ∅ 0)) = root_link_name (run 0 (chain_from_robot id_conv 9 r') (quiet ∅ 0)).
Proof.
  intros E. specialize (E (Robot [ulink_ "a"; ulink_ "b"] []) (Robot [ulink_ "b"; ulink_ "a"] [])).
  assert (K : root_link_name (run 0 (chain_from_robot id_conv 9 (Robot [ulink_ "a"; ulink_ "b"] [])) (quiet ∅ 0)) =
              root_link_name (run 0 (chain_from_robot id_conv 9 (Robot [ulink_ "b"; ulink_ "a"] [])) (quiet ∅ 0))).
  { apply E.
    - split; [apply perm_swap|reflexivity].
    - intros i k i' k' (j & Hj & _). discriminate Hj.
    - split; apply (bool_decide_eq_true_1 _); vm_compute; reflexivity.
    - intros j Hj. inversion Hj.
    - intros j m Hj. inversion Hj.
    - apply in_order_acyclic. intros i k ji jk Hi. discriminate Hi. }
  vm_compute in K. discriminate K.
Qed.
Print Assumptions C96_base_refuted.

(** C96.  The order of the joints that mimic one joint matters: where the last of them refuses its position, those that come
    before it have moved and those after it have not. *)
Definition pair_a : ujoint spec_float := ujoint_ "j1" UPrismatic "base" "l1" 0 10 None.
Definition pair_b : ujoint spec_float := ujoint_ "j2" UPrismatic "l1" "l2" 0 10 (Some (UMimic "j1" None None)).
Definition pair_c : ujoint spec_float := ujoint_ "j3" UPrismatic "l2" "l3" 0 4 (Some (UMimic "j1" None None)).
Definition pair_links : list (ulink spec_float) := [ulink_ "base"; ulink_ "l1"; ulink_ "l2"; ulink_ "l3"].
(** set joint [i] to 5 and ask for joint [k] *)
Definition push (i k : nat) : client spec_float _ := Call (KSetPosition (1 + i) (f 5)) (fun e => Call (KJointPosition (1 + k)) (fun p => Finish (e, p))).
Definition answer (r : robot spec_float) i k := match run 0 (chain_from_robot id_conv 9 r) (quiet ∅ 0) with Done _ s => fst <$> final (run 0 (denote (push i k)) s) | _ => None end.
Theorem C96_mimic_order_refuted : ~ forall (r r' : robot spec_float) i i' k k',
  shuffled r r' -> one_base r -> well_named r -> joints_convert id_conv (r_joints r) -> mimics_known r -> acyclic r ->
  matched r r' i i' -> matched r r' k k' -> answer r i k = answer r' i' k'.
Proof.
  intros E. specialize (E (Robot pair_links [pair_a; pair_b; pair_c]) (Robot pair_links [pair_a; pair_c; pair_b]) 0 0 1 2).
  assert (K : answer (Robot pair_links [pair_a; pair_b; pair_c]) 0 1 = answer (Robot pair_links [pair_a; pair_c; pair_b]) 0 2).
  { apply E; clear E.
    - split; [reflexivity|]. unfold r_joints. apply perm_skip, perm_swap.
    - assert (B : forall l, l ∈ pair_links -> free_link (Robot pair_links [pair_a; pair_b; pair_c]) l -> l = ulink_ "base").
      { intros l Hl Hf. unfold pair_links in Hl. rewrite !elem_of_cons in Hl. destruct Hl as [-> |[-> |[-> |[-> |Hl]]]]; [reflexivity|..|inversion Hl]; exfalso;
          [apply (Hf pair_a)|apply (Hf pair_b)|apply (Hf pair_c)]; first [reflexivity|cbn [r_joints]; rewrite !elem_of_cons; auto]. }
      intros l l' H1 H2 F1 F2. rewrite (B l H1 F1), (B l' H2 F2). reflexivity.
    - split; apply (bool_decide_eq_true_1 _); vm_compute; reflexivity.
    - intros j Hj. unfold r_joints in Hj. rewrite !elem_of_cons in Hj. destruct Hj as [-> |[-> |[-> |Hj]]]; [..|inversion Hj]; rewrite UrdfProofs5.joint_from_cases;
        match goal with |- is_Some (match ?e with _ => _ end) => let v := eval vm_compute in e in assert (X : e = v) by (vm_compute; reflexivity); rewrite X; eauto end.
    - intros j m Hj. unfold r_joints in Hj. rewrite !elem_of_cons in Hj. destruct Hj as [-> |[-> |[-> |Hj]]]; [..|inversion Hj]; intros X; try discriminate X; injection X as <-;
        (exists pair_a; split; [left|reflexivity]).
    - apply in_order_acyclic. intros [|[|[|i]]] [|[|[|k]]] ji jk Hi Hk Hc; try discriminate Hi; try discriminate Hk; injection Hi as <-; injection Hk as <-; try discriminate Hc; lia.
    - exists pair_a. split; reflexivity.
    - exists pair_b. split; reflexivity. }
  vm_compute in K. discriminate K.
Qed.
Print Assumptions C96_mimic_order_refuted.
