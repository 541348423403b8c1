(** * C97: robots with mimic tags, from the description to the place of their links *)
From Coq Require Import String Reals Lra ZArith Floats.SpecFloat.
From stdpp Require Import gmap strings.
From Verif Require Import Scalar ScalarR ScalarF Geometry Joint Link Prog NodeM ChainM FuncsM IkM SpecNode SpecGraph SpecGeom SpecChain SpecFK Api UrdfM SpecUrdf Ex PropUrdf
  SpecPlace PropPlace SpecObey ObeyProofs.
Open Scope R_scope.

(** C97: load any description as in C94, with any mimic tags, and call set_joint_positions.  It succeeds if and only if the
    list has one number for each movable joint, and the joints without mimic tag reach the numbers given for them and
    the joints that mimic those reach what their tags make of that.  Then the joints stand as the tags
    say, and update_transforms puts every link where the description has it with these positions. *)
Theorem C97_obeyed t (r : robot R) (h : gmap nat (node R)) nx fuel :
  heap_ok h nx -> mimic_wf h -> well_named r -> (forall j, j ∈ r_joints r -> sound_joint j) -> mimics_known r -> acyclic r ->
  (S (length (r_joints r)) < fuel)%nat ->
  exists c h1, run t (chain_from_robot (fun x : R => x) fuel r) (quiet h nx) = Done c (quiet h1 (S nx + length (r_joints r))) /\
  (forall ps, (exists s, run t (set_joint_positions c ps) (quiet h1 (S nx + length (r_joints r))) = Done (Ok tt) s) <-> acceptable r nx (c_movable c) ps) /\
  forall ps s, run t (set_joint_positions c ps) (quiet h1 (S nx + length (r_joints r))) = Done (Ok tt) s ->
  exists q h2 ws h3, s = quiet h2 (S nx + length (r_joints r)) /\ obeyed r nx (c_movable c) ps q /\ stands r nx h2 q /\
    run t (update_transforms c) (quiet h2 (S nx + length (r_joints r))) = Done ws (quiet h3 (S nx + length (r_joints r))) /\
    forall i, (i < length (r_joints r))%nat -> exists k w,
      c_nodes c !! k = Some (S nx + i)%nat /\ ws !! k = Some w /\ wt_of h3 (S nx + i) (Some w) /\ proper w /\
      forall x, placed r q i x (move w x).
Proof. exact (fun A B C D E F G => obey_lemma t r h nx fuel A B C D E F G). Qed.
Print Assumptions C97_obeyed.

(** C97: the list and the tags leave no choice, except that the numbers given to joints with a mimic tag do not count *)
Theorem C97_one_posture (r : robot R) nx ms ps ps' q q' i : well_named r -> mimics_known r ->
  obeyed r nx ms ps q -> obeyed r nx ms ps' q' ->
  (forall k j x, r_joints r !! k = Some j -> uj_mimic j = None -> ms !! x = Some (S nx + k)%nat -> ps' !! x = ps !! x) ->
  (i < length (r_joints r))%nat -> q' i = q i.
Proof.
  intros Hwn Hk O O' Hsame Hi. destruct (lookup_lt_is_Some_2 _ _ Hi) as [j Hj].
  assert (Hd : forall j : ujoint R, moves j \/ ~ moves j) by (intros [? [] ? ? ? ? ? ? ?]; cbn; tauto).
  assert (Hfree : forall k jk, r_joints r !! k = Some jk -> uj_mimic jk = None -> moves jk -> q' k = q k).
  { intros k jk Hjk Hu Hm. destruct (ob_all _ _ _ _ _ O k jk Hjk Hm) as (x & p & Hx & Hp).
    rewrite (ob_told _ _ _ _ _ O k jk x p Hjk Hu Hx Hp). apply (ob_told _ _ _ _ _ O' k jk x p Hjk Hu Hx). rewrite (Hsame k jk x Hjk Hu Hx). exact Hp. }
  destruct (uj_mimic j) as [m|] eqn:Em.
  - destruct (Hk j m) as (jk & Hjk & Hn); [eapply elem_of_list_lookup_2; eauto|exact Em|]. apply elem_of_list_lookup in Hjk as [k Hjk].
    assert (Hm : mimics r i k m) by (exists j, jk; auto).
    assert (Hrest : forall k2 jk2 m2, mimics r i k2 m2 -> r_joints r !! k2 = Some jk2 -> jk2 = jk).
    { intros k2 jk2 m2 Hm2 Hjk2. destruct (ShuffleProofs.mimic_fun r _ _ _ _ _ Hwn Hm Hm2) as [-> _]. congruence. }
    destruct (Hd jk) as [Hmo|Hmo]; [destruct (uj_mimic jk) as [m'|] eqn:Ek|].
    + rewrite (ob_rest _ _ _ _ _ O i j Hj), (ob_rest _ _ _ _ _ O' i j Hj); [reflexivity|congruence| |congruence|];
        intros k2 jk2 m2 H1 H2 _; rewrite (Hrest _ _ _ H1 H2), Ek; discriminate.
    + rewrite (ob_mimic _ _ _ _ _ O i k jk m Hm Hjk Ek Hmo), (ob_mimic _ _ _ _ _ O' i k jk m Hm Hjk Ek Hmo), (Hfree k jk Hjk Ek Hmo). reflexivity.
    + rewrite (ob_rest _ _ _ _ _ O i j Hj), (ob_rest _ _ _ _ _ O' i j Hj); [reflexivity|congruence| |congruence|];
        intros k2 jk2 m2 H1 H2 H3; rewrite (Hrest _ _ _ H1 H2) in H3; contradiction.
  - destruct (Hd j) as [Hmo|Hmo]; [exact (Hfree i j Hj Em Hmo)|].
    rewrite (ob_rest _ _ _ _ _ O i j Hj), (ob_rest _ _ _ _ _ O' i j Hj); try reflexivity; try (intros _; exact Hmo);
      intros k2 jk2 m2 (a & b & Ha & _ & Ea & _); congruence.
Qed.
Print Assumptions C97_one_posture.

(** ** A case: a lift of two slides; the upper one goes twice as far as the lower one, plus one *)
Definition lower : ujoint R := UJoint "lower" UPrismatic no_pose "base" "stage" (V3 0 0 1) 0 3 None.
Definition upper : ujoint R := UJoint "upper" UPrismatic no_pose "stage" "desk" (V3 0 0 1) 0 9 (Some (UMimic "lower" (Some 2) (Some 1))).
Definition lift : robot R := Robot [bare_link "base" 2; bare_link "stage" 1; bare_link "desk" 3] [lower; upper].
Lemma lift_named : well_named lift.
Proof. split; cbn; repeat constructor; set_solver. Qed.
Lemma lift_sound j : j ∈ r_joints lift -> sound_joint j.
Proof. cbn. rewrite !elem_of_cons. intros [-> | [-> | Hj]]; [..|inversion Hj]; split; cbn; try lra; intros E; injection E; lra. Qed.
Lemma lift_known : mimics_known lift.
Proof. intros j m. cbn. rewrite !elem_of_cons. intros [-> | [-> | Hj]]; [discriminate| |inversion Hj]. intros E. injection E as <-. exists lower. split; [left|reflexivity]. Qed.
Lemma lift_acyclic : acyclic lift.
Proof. apply in_order_acyclic. intros [|[|i]] [|[|k]] ji jk Hi Hk Hc; try discriminate Hi; try discriminate Hk; injection Hi as <-; injection Hk as <-; try discriminate Hc; lia. Qed.
Lemma lift_mimics : mimics lift 1 0 (UMimic "lower" (Some 2) (Some 1)).
Proof. exists upper, lower. repeat split. Qed.
(** told to go to 1 everywhere, the lower slide is at 1 and the upper one at 3 *)
Example C97_case : exists c h1, run 0 (chain_from_robot (fun x : R => x) 9 lift) (quiet ∅ 0) = Done c (quiet h1 3) /\
  exists s q h2, run 0 (set_joint_positions c (replicate (length (c_movable c)) 1)) (quiet h1 3) = Done (Ok tt) s /\ s = quiet h2 3 /\
    stands lift 0 h2 q /\ q 0%nat = 1 /\ q 1%nat = 3.
Proof.
  destruct (C97_obeyed 0 lift ∅ 0 9 lathe_empty) as (c & h1 & R1 & Hacc & Hob); [|exact lift_named|exact lift_sound|exact lift_known|exact lift_acyclic|cbn; lia|].
  { intros a n d E. rewrite lookup_empty in E. discriminate. }
  exists c, h1. split; [exact R1|]. destruct (proj2 (Hacc (replicate (length (c_movable c)) 1))) as [s E].
  { split; [apply replicate_length|]. intros i j k p Hj Hu _ Hp. apply lookup_replicate in Hp as [-> _].
    destruct i as [|[|i]]; [|injection Hj as <-; discriminate Hu|discriminate Hj]. injection Hj as <-. split; [split; [exact I|cbn; lra]|].
    intros b jb m (a1 & a2 & A1 & A2 & A3 & _) Hjb. destruct b as [|[|b]]; [injection A1 as <-; discriminate A3| |discriminate A1].
    injection A1 as <-. injection A3 as <-. injection Hjb as <-. split; [exact I|cbn; lra]. }
  destruct (Hob _ s E) as (q & h2 & ws & h3 & -> & O & Hst & _). exists (quiet h2 3), q, h2. split; [exact E|]. split; [reflexivity|]. split; [exact Hst|].
  assert (Q0 : q 0%nat = 1).
  { destruct (ob_all _ _ _ _ _ O 0%nat lower eq_refl I) as (k & p & Hk & Hp). rewrite (ob_told _ _ _ _ _ O 0%nat lower k p eq_refl eq_refl Hk Hp).
    apply lookup_replicate in Hp as [-> _]. reflexivity. }
  split; [exact Q0|]. rewrite (ob_mimic _ _ _ _ _ O 1%nat 0%nat lower _ lift_mimics eq_refl eq_refl I), Q0. cbn. ring.
Qed.

(** C97: a joint that mimics a joint with a mimic tag of its own is not moved, so its tag is not obeyed.  (f64) *)
Definition row : robot spec_float := Robot [ulink_ "base"; ulink_ "l1"; ulink_ "l2"; ulink_ "l3"]
  [ujoint_ "j1" UPrismatic "base" "l1" 0 0 None; ujoint_ "j2" UPrismatic "l1" "l2" 0 0 (Some (UMimic "j1" None None));
   ujoint_ "j3" UPrismatic "l2" "l3" 0 0 (Some (UMimic "j2" None None))].
Definition all_to (r : robot spec_float) (p : spec_float) : outcome spec_float (result spec_float unit) :=
  run 0 (c <- chain_from_robot id_conv 9 r ;; set_joint_positions c (replicate (length (c_movable c)) p)) (quiet ∅ 0).
Theorem C97_chained_refuted : ~ forall (r : robot spec_float) p s i k m a,
  well_named r -> joints_convert id_conv (r_joints r) -> mimics_known r -> acyclic r -> all_to r p = Done (Ok tt) s ->
  mimics r i k m -> um_multiplier m = None -> um_offset m = None -> position_at (heap s) (1 + k) = Some a ->
  position_at (heap s) (1 + i) = Some (sadd (smul a sone) szero).
Proof.
  intros H.
  assert (P : match all_to row (f 1) with Done (Ok tt) s => Some (position_at (heap s) 2, position_at (heap s) 3) | _ => None end = Some (Some (f 1), Some (f 0)))
    by (vm_compute; reflexivity).
  destruct (all_to row (f 1)) as [x s| | | |] eqn:E; try discriminate P. destruct x as [[]|e]; [|discriminate P].
  assert (P2 : position_at (heap s) 2 = Some (f 1)) by congruence. assert (P3 : position_at (heap s) 3 = Some (f 0)) by congruence. clear P.
  assert (K : position_at (heap s) (1 + 2) = Some (sadd (smul (f 1) sone) szero)).
  { apply (H row (f 1) s 2%nat 1%nat (UMimic "j2" None None) (f 1)); [..|exact E| |reflexivity|reflexivity|exact P2].
    - split; apply (bool_decide_eq_true_1 _); vm_compute; reflexivity.
    - intros j Hj. unfold row, r_joints in Hj. rewrite !elem_of_cons in Hj. destruct Hj as [-> |[-> |[-> |Hj]]]; [..|inversion Hj]; rewrite UrdfProofs5.joint_from_cases;
        match goal with |- is_Some (match ?e with _ => _ end) => let v := eval vm_compute in e in assert (X : e = v) by (vm_compute; reflexivity); rewrite X; eauto end.
    - intros j m Hj. unfold row, r_joints in Hj. rewrite !elem_of_cons in Hj. destruct Hj as [-> |[-> |[-> |Hj]]]; [..|inversion Hj]; intros X; try discriminate X; injection X as <-;
        [exists (ujoint_ "j1" UPrismatic "base" "l1" 0 0 None)|exists (ujoint_ "j2" UPrismatic "l1" "l2" 0 0 (Some (UMimic "j1" None None)))];
        (split; [cbn [r_joints row]; rewrite !elem_of_cons; auto|reflexivity]).
    - apply in_order_acyclic. intros [|[|[|i]]] [|[|[|k]]] ji jk Hi Hk Hc; try discriminate Hi; try discriminate Hk; injection Hi as <-; injection Hk as <-; try discriminate Hc; lia.
    - eexists _, _. split; [reflexivity|]. split; [reflexivity|]. split; reflexivity. }
  change (position_at (heap s) 3 = Some (sadd (smul (f 1) sone) szero)) in K. rewrite P3 in K. vm_compute in K. discriminate K.
Qed.
Print Assumptions C97_chained_refuted.
