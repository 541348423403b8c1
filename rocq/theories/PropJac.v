(** * C30: the Jacobian is the derivative of forward kinematics (over the reals) *)
From Coq Require Import String Reals Lra.
From stdpp Require Import gmap.
From Verif Require Import Scalar ScalarR Geometry Joint Link Prog NodeM ChainM FuncsM RunLemmas
  SpecJoint SpecNode SpecGraph GraphProofs SpecChain ChainProofs SpecFK FKProofs JacProofs SpecGeom RGeom GeomProofs JacReal PropGeom.
Local Open Scope R_scope.

(** C30.  [fk u] is what end_transform returns after moving joint [a] to [u]. *)
Theorem C30_jacobian_is_derivative (t : nat) (h : gmap nat (node R)) nx arm e l :
  path_up h e l -> c_nodes arm = rev l -> chain_of h (rev l) arm ->
  (forall a n, a ∈ l -> h !! a = Some n -> unit_joint (n_joint n)) ->
  exists cols h', run t (jacobian arm) (quiet h nx) = Done (Mat 6 cols) (quiet h' nx) /\
    length cols = c_dof arm /\
    forall i a n, c_movable arm !! i = Some a -> h !! a = Some n ->
    exists fk d1 d2 d3 o1 o2 o3,
      (forall u, exists s, run t (node_set_joint_position_unchecked a u ;;; end_transform arm) (quiet h nx) = Done (fk u) s) /\
      run t (end_transform arm) (quiet h nx) = Done (fk (j_position (n_joint n))) (quiet h nx) /\
      cols !! i = Some [d1; d2; d3; o1; o2; o3] /\
      deriv3 (fun u => tr (fk u)) (j_position (n_joint n)) (V3 d1 d2 d3) /\
      forall v, deriv3 (fun u => turn (rt (fk u)) v) (j_position (n_joint n))
                  (cross (V3 o1 o2 o3) (turn (rt (fk (j_position (n_joint n)))) v)).
Proof. exact (jacobian_derivative_lemma t h nx arm e l). Qed.
Print Assumptions C30_jacobian_is_derivative.

(** a concrete chain meeting the hypotheses: slide -> hinge of PropGeom *)
Definition arm2 : chain := Chain [0%nat; 1%nat] [0%nat; 1%nat] 2.
Example C30_case_hypotheses :
  path_up two 1%nat [1%nat; 0%nat] /\ c_nodes arm2 = rev [1%nat; 0%nat] /\ chain_of two (rev [1%nat; 0%nat]) arm2 /\
  (forall a n, a ∈ [1%nat; 0%nat] -> two !! a = Some n -> unit_joint (n_joint n)).
Proof.
  assert (H0 : two !! 0%nat = Some (node_of (slide 1) None [1%nat])) by reflexivity.
  assert (H1 : two !! 1%nat = Some (node_of (hinge (PI / 2)) (Some 0%nat) [])) by reflexivity.
  split; [|split; [reflexivity|split]].
  - eapply path_step; [|apply path_root].
    + split; [exists (node_of (hinge (PI / 2)) (Some 0%nat) []); auto|rewrite H0; eauto].
    + split; [rewrite H0; eauto|]. intros p [(n & Hn & E) _]. rewrite H0 in Hn. apply Some_inj in Hn as <-. discriminate.
  - split; [reflexivity|]. split; reflexivity.
  - intros a n _ Hn. apply (proj2 (proj2 C22_case_hypotheses) a n Hn).
Qed.

(** C30 fails for a chain cut from a tree: hinge (at the origin) and tip (1,0,0),
    whose outside parent has its world transform (1,0,0) cached. *)
Definition tip : joint R := Joint "tip" Fixed 0 0 None (Iso (V3 1 0 0) q1) None None.
Definition base : joint R := Joint "base" Fixed 0 0 None (Iso (V3 1 0 0) q1) (Some (Iso (V3 1 0 0) q1)) None.
Definition door : joint R := Joint "door" (Rotational (V3 0 0 1)) 0 0 None iso1 None None.
Definition cut : gmap nat (node R) :=
  <[0%nat := node_of base None [1%nat]]> (<[1%nat := node_of door (Some 0%nat) [2%nat]]>
    (<[2%nat := node_of tip (Some 1%nat) []]> ∅)).
Definition arm_cut : chain := Chain [1%nat; 2%nat] [1%nat] 1.
Theorem C30_cut_chain_refuted (t nx : nat) :
  live_parent cut 1 0 /\ serial cut [1%nat; 2%nat] /\ chain_of cut [1%nat; 2%nat] arm_cut /\
  (forall a n, cut !! a = Some n -> unit_joint (n_joint n)) /\
  exists h', run t (jacobian arm_cut) (quiet cut nx) = Done (Mat 6 [[0; 0; 0; 0; 0; 1]]) (quiet h' nx) /\
  forall fk,
    (forall u, exists s, run t (node_set_joint_position_unchecked 1 u ;;; end_transform arm_cut) (quiet cut nx) = Done (fk u) s) ->
    deriv3 (fun u => tr (fk u)) 0 (V3 0 1 0) /\ ~ deriv3 (fun u => tr (fk u)) 0 (V3 0 0 0).
Proof.
  assert (H0 : cut !! 0%nat = Some (node_of base None [1%nat])) by reflexivity.
  assert (H1 : cut !! 1%nat = Some (node_of door (Some 0%nat) [2%nat])) by reflexivity.
  assert (H2 : cut !! 2%nat = Some (node_of tip (Some 1%nat) [])) by reflexivity.
  assert (Hlp : live_parent cut 1 0) by (split; [eexists; split; [exact H1|reflexivity]|rewrite H0; eauto]).
  assert (Hser : serial cut [1%nat; 2%nat]).
  { intros [|[|i]] a b Ha Hb; cbn in Ha, Hb; try discriminate. injection Ha as <-. injection Hb as <-.
    split; [eexists; split; [exact H2|reflexivity]|rewrite H1; eauto]. }
  assert (Hch : chain_of cut [1%nat; 2%nat] arm_cut) by (split; [reflexivity|split; reflexivity]).
  assert (Hlive : all_live cut [1%nat; 2%nat]).
  { intros a Ha. apply elem_of_cons in Ha as [->|Ha]; [eauto|]. apply elem_of_list_singleton in Ha as ->. eauto. }
  assert (Hu : forall a n, cut !! a = Some n -> unit_joint (n_joint n)).
  { intros a n Hn. unfold cut in Hn.
    apply lookup_insert_Some in Hn as [[<- <-]|[_ Hn]];
      [|apply lookup_insert_Some in Hn as [[<- <-]|[_ Hn]]; [|apply lookup_insert_Some in Hn as [[<- <-]|[_ Hn]]; [|rewrite lookup_empty in Hn; discriminate]]];
      unfold unit_joint, proper, unit_axis, unit_quat; cbn; unfold unit_axis; cbn; split; auto; lra. }
  split; [exact Hlp|]. split; [exact Hser|]. split; [exact Hch|]. split; [exact Hu|].
  assert (Hts : forall u, Forall2 (local_at (<[1%nat := set_n_joint (node_of door (Some 0%nat) [2%nat]) (jat door u)]> cut))
    [1%nat; 2%nat] [local_transform (jat door u); local_transform tip]).
  { intros u. constructor; [|constructor; [|constructor]].
    - eexists. rewrite lookup_insert. split; reflexivity.
    - eexists. rewrite lookup_insert_ne by discriminate. split; [exact H2|reflexivity]. }
  assert (Hts0 : Forall2 (local_at cut) [1%nat; 2%nat] [local_transform (jat door 0); local_transform tip]).
  { constructor; [|constructor; [|constructor]]; eexists; split; [exact H1|reflexivity|exact H2|reflexivity]. }
  assert (Hfk : forall u, product iso1 [local_transform (jat door u); local_transform tip] =
    iso_mul (local_transform (jat door u)) (local_transform tip)).
  { intros u. cbn [product foldl]. rewrite iso_mul_1_l. reflexivity. }
  assert (Hdoor : forall u, unit_joint (jat door u)) by (intros u; exact (Hu 1%nat _ H1)).
  assert (Htip : unit_joint tip) by exact (Hu 2%nat _ H2).
  assert (Htr : forall u, tr (iso_mul (local_transform (jat door u)) (local_transform tip)) = V3 (cos u) (sin u) 0).
  { intros u. rewrite <- move_zero, iso_mul_move by (apply proper_local; auto).
    rewrite (local_rotational (jat door u) (V3 0 0 1)) by (auto; reflexivity).
    rewrite (local_fixed tip) by reflexivity. cbn [tip j_origin jat joint_set_unchecked j_position door]. unfold rotate.
    set (c := cos u). set (s := sin u). gv; ring. }
  destruct (run_jacobian t cut nx arm_cut _ (serial_cut_order cut 1 [2%nat] 0 (Iso (V3 1 0 0) q1) Hser Hlive
    ltac:(apply NoDup_cons; split; [set_solver|apply NoDup_singleton]) Hlp ltac:(set_solver) ltac:(eexists; split; [exact H0|reflexivity])) Hch Hts0)
    as (cols & h' & Hr & _ & Hcols).
  exists h'. split.
  - rewrite Hr. do 2 f_equal. inversion Hcols as [|? col ? rest Hcol Hrest]; subst. inversion Hrest; subst. f_equal.
    destruct Hcol as (n & w & Hn & Hb & Hj). rewrite H1 in Hn. apply Some_inj in Hn as <-.
    assert (w = iso_mul (Iso (V3 1 0 0) q1) (local_transform door)) as ->.
    { eapply based_fun; [exact Hb|].
      exact (based_out cut [1%nat; 2%nat] 1 _ 0 _ H1 Hlp ltac:(set_solver) ltac:(eexists; split; [exact H0|reflexivity])). }
    rewrite Hfk, Htr in Hj. cbv beta iota zeta delta [jcol n_joint node_of door j_type] in Hj.
    fold door in Hj. rewrite qrot_turn in Hj. apply Some_inj in Hj. subst col. rewrite sin_0, cos_0.
    assert (Hrt : rt (local_transform door) = Qt 0 0 0 1).
    { change (rt (local_transform door)) with (qmul q1 (qaxis_angle (V3 0 0 1) (0 : R))).
      unfold qaxis_angle. rewrite stwo_R. change (@sdiv R RScalar) with Rdiv. replace (0 / 2) with 0 by field.
      change (ssin (0 : R)) with (sin 0). change (scos (0 : R)) with (cos 0). rewrite sin_0, cos_0. gq; ring. }
    assert (Htl : tr (local_transform door) = V3 0 0 0).
    { rewrite <- move_zero. rewrite (local_rotational door (V3 0 0 1)) by (reflexivity || exact (Hdoor 0)).
      rewrite rotate_zero, move_zero. reflexivity. }
    rewrite iso_mul_tr_eq, Htl. cbn [iso_mul rt]. rewrite Hrt. cbn [tr]. repeat f_equal; un; ring.
  - intros fk Hk.
    assert (Hfe : forall u, V3 (cos u) (sin u) 0 = tr (fk u)).
    { intros u. destruct (Hk u) as [s Hs]. rewrite run_bind, (set_unchecked_run t cut nx 1 _ u H1) in Hs. cbn [obind] in Hs.
      unfold end_transform in Hs. cbn [c_nodes arm_cut] in Hs. cbn [n_joint node_of] in Hs.
      rewrite (run_end_fold t _ nx _ _ (Hts u) iso1) in Hs.
      apply (f_equal (fun o => match o with Done x _ => tr x | _ => V3 0 0 0 end)) in Hs. cbv beta iota in Hs.
      rewrite Hfk, Htr in Hs. exact Hs. }
    assert (Hd : deriv3 (fun u => tr (fk u)) 0 (V3 0 1 0)).
    { apply (deriv3_ext (fun u => V3 (cos u) (sin u) 0) _ 0 (V3 (- sin 0) (cos 0) 0)); [exact Hfe|rewrite sin_0, cos_0; gv; ring|].
      split; [|split]; [apply derivable_pt_lim_cos|apply derivable_pt_lim_sin|apply derivable_pt_lim_const]. }
    split; [exact Hd|]. intros (_ & Hy & _). destruct Hd as (_ & Hy' & _). cbn in Hy, Hy'.
    pose proof (uniqueness_limite _ _ _ _ Hy Hy'). lra.
Qed.
Print Assumptions C30_cut_chain_refuted.
