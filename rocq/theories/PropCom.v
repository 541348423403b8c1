(** * C29: the center of mass *)
From Coq Require Import String Reals Lra.
From stdpp Require Import gmap.
From Verif Require Import Scalar ScalarR Geometry Joint Link Prog NodeM ChainM FuncsM RunLemmas
  SpecJoint SpecNode SpecGraph GraphProofs SpecChain SpecFK FKProofs SpecGeom SpecCom RGeom GeomProofs ComProofs PropGeom.

(** C29, any scalars: the result is sum (m_i * center_i) / sum m_i over exactly
    the nodes with a link, summed in chain order *)
Theorem C29_center_of_mass {T : Type} `{Sc : Scalar T} (t : nat) (h : gmap nat (node T)) nx c :
  all_live h (c_nodes c) -> parents_first h (c_nodes c) ->
  exists cs h', centers h (c_nodes c) cs /\
    run t (center_of_mass c) (quiet h nx) = Done (vdivs (weighted_sum cs) (total_mass cs)) (quiet h' nx).
Proof. exact (center_of_mass_lemma t h nx c). Qed.
Print Assumptions C29_center_of_mass.

Local Open Scope R_scope.
(** over the reals, it is the weighted mean *)
Theorem C29_mean (t : nat) (h : gmap nat (node R)) nx c :
  all_live h (c_nodes c) -> parents_first h (c_nodes c) ->
  exists cs h', link_centers h (c_nodes c) cs /\ run t (center_of_mass c) (quiet h nx) = Done (mean cs) (quiet h' nx).
Proof.
  intros Hl Hp. destruct (center_of_mass_lemma t h nx c Hl Hp) as (cs & h' & Hc & Hr).
  exists cs, h'. split; [apply centers_link_centers, Hc|]. rewrite com_mean in Hr. exact Hr.
Qed.
Print Assumptions C29_mean.

(** non-negative masses with a positive total: it lies in every closed half-space
    [{x | n.x <= k}] that contains all the link centers ... *)
Theorem C29_half_space (t : nat) (h : gmap nat (node R)) nx c cs :
  all_live h (c_nodes c) -> parents_first h (c_nodes c) -> link_centers h (c_nodes c) cs ->
  Forall (fun mc => 0 <= fst mc) cs -> 0 < rsum fst cs ->
  exists com s, run t (center_of_mass c) (quiet h nx) = Done com s /\
    forall n k, Forall (fun mc => inner n (snd mc) <= k) cs -> inner n com <= k.
Proof.
  intros Hl Hp Hc Hm Ht. destruct (center_of_mass_lemma t h nx c Hl Hp) as (cs' & h' & Hc' & Hr).
  assert (cs' = cs) as -> by (eapply centers_fun; [exact Hc'|apply centers_link_centers, Hc]). rewrite com_mean in Hr.
  eexists _, _. split; [exact Hr|]. intros n k. apply half_space_lemma; assumption.
Qed.
Print Assumptions C29_half_space.
(** ... so it lies in every box that contains them *)
Theorem C29_box (t : nat) (h : gmap nat (node R)) nx c cs lo hi :
  all_live h (c_nodes c) -> parents_first h (c_nodes c) -> link_centers h (c_nodes c) cs ->
  Forall (fun mc => 0 <= fst mc) cs -> 0 < rsum fst cs ->
  Forall (fun mc => (vx lo <= vx (snd mc) <= vx hi) /\ (vy lo <= vy (snd mc) <= vy hi) /\ (vz lo <= vz (snd mc) <= vz hi)) cs ->
  exists com s, run t (center_of_mass c) (quiet h nx) = Done com s /\
    (vx lo <= vx com <= vx hi) /\ (vy lo <= vy com <= vy hi) /\ (vz lo <= vz com <= vz hi).
Proof.
  intros Hl Hp Hc Hm Ht Hb. destruct (C29_half_space t h nx c cs Hl Hp Hc Hm Ht) as (com & s & Hr & H).
  exists com, s. split; [exact Hr|].
  assert (G : forall n k, (forall x, (vx lo <= vx x <= vx hi) /\ (vy lo <= vy x <= vy hi) /\ (vz lo <= vz x <= vz hi) -> inner n x <= k) -> inner n com <= k).
  { intros n k Hn. apply H. eapply Forall_impl; [exact Hb|]. intros mc Hmc. apply Hn, Hmc. }
  pose proof (G (V3 1 0 0) (vx hi)) as G1. pose proof (G (V3 (-1) 0 0) (- vx lo)) as G2.
  pose proof (G (V3 0 1 0) (vy hi)) as G3. pose proof (G (V3 0 (-1) 0) (- vy lo)) as G4.
  pose proof (G (V3 0 0 1) (vz hi)) as G5. pose proof (G (V3 0 0 (-1)) (- vz lo)) as G6.
  unfold inner in *. cbn [vx vy vz] in *.
  assert (A1 := G1 ltac:(intros x Hx; lra)). assert (A2 := G2 ltac:(intros x Hx; lra)).
  assert (A3 := G3 ltac:(intros x Hx; lra)). assert (A4 := G4 ltac:(intros x Hx; lra)).
  assert (A5 := G5 ltac:(intros x Hx; lra)). assert (A6 := G6 ltac:(intros x Hx; lra)). lra.
Qed.
Print Assumptions C29_box.

(** moving the only root of the chain by a rigid motion [M] (its origin becomes
    M * origin) moves the center of mass by [M] *)
Theorem C29_root_moves (t : nat) (h : gmap nat (node R)) nx c r n M cs :
  all_live h (c_nodes c) -> parents_first h (c_nodes c) ->
  (forall a m, a ∈ c_nodes c -> h !! a = Some m -> unit_joint (n_joint m)) ->
  h !! r = Some n -> (forall a, a ∈ c_nodes c -> no_parent h a -> a = r) ->
  proper M -> link_centers h (c_nodes c) cs -> rsum fst cs <> 0 ->
  (forall x, move (iso_mul M (j_origin (n_joint n))) x = move M (move (j_origin (n_joint n)) x)) /\
  exists com s s', run t (center_of_mass c) (quiet h nx) = Done com s /\
    run t (node_set_origin r (iso_mul M (j_origin (n_joint n))) ;;; center_of_mass c) (quiet h nx) = Done (move M com) s'.
Proof.
  intros Hl Hp Hu Hr Hroot HM Hc Ht.
  assert (Hcs : centers h (c_nodes c) cs) by (apply centers_link_centers, Hc).
  assert (Hin : r ∈ c_nodes c).
  { destruct (c_nodes c) as [|a l] eqn:E; [inversion Hc; subst; rewrite rsum_nil in Ht; lra|].
    inversion Hcs; subst.
    all: destruct (Hl a ltac:(set_solver)) as [m Hm].
    all: assert (Hna : no_parent h a) by (split; [eauto|]; intros p Hpa; pose proof (Hp [] a l p eq_refl Hpa) as Hbad; set_solver).
    all: rewrite <- (Hroot a ltac:(set_solver) Hna); set_solver. }
  split; [intros x; apply iso_mul_move; [exact HM|apply (Hu r n Hin Hr)]|].
  destruct (shift_com_lemma h r n M Hr HM t nx c Hl Hp Hu Hroot cs Hcs Ht) as (s & s' & H1 & H2).
  exists (mean cs), s, s'. split; [exact H1|exact H2].
Qed.
Print Assumptions C29_root_moves.

(** ** A concrete case: a root of mass 1 centered at (0,0,1), a joint without link,
    and a tip of mass 3 centered at (4,0,1) *)
Definition body (m : R) (x : vec3 R) : link R :=
  link_with_inertial link_default (Inertial (Iso x q1) m mat3_id None).
Definition bar (nm : string) (x : R) : joint R := Joint nm Fixed 0 0 None (Iso (V3 x 0 0) q1) None None.
Definition three : gmap nat (node R) :=
  <[0%nat := Node None [1%nat] (bar "a" 0) None [] None (Some (body 1 (V3 0 0 1)))]>
  (<[1%nat := Node (Some 0%nat) [2%nat] (bar "b" 1) None [] None None]>
  (<[2%nat := Node (Some 1%nat) [] (bar "c" 2) None [] None (Some (body 3 (V3 1 0 1)))]> ∅)).
Definition rod : chain := Chain [0%nat; 1%nat; 2%nat] [] 0.
Definition rod_centers : list (R * vec3 R) := [(1, V3 0 0 1); (3, V3 4 0 1)].
Example C29_case_hypotheses :
  all_live three (c_nodes rod) /\ parents_first three (c_nodes rod) /\
  (forall a m, a ∈ c_nodes rod -> three !! a = Some m -> unit_joint (n_joint m)) /\
  (forall a, a ∈ c_nodes rod -> no_parent three a -> a = 0%nat) /\
  link_centers three (c_nodes rod) rod_centers /\ rsum fst rod_centers = 4 /\
  Forall (fun mc => 0 <= fst mc) rod_centers.
Proof.
  assert (H0 : three !! 0%nat = Some (Node None [1%nat] (bar "a" 0) None [] None (Some (body 1 (V3 0 0 1))))) by reflexivity.
  assert (H1 : three !! 1%nat = Some (Node (Some 0%nat) [2%nat] (bar "b" 1) None [] None None)) by reflexivity.
  assert (H2 : three !! 2%nat = Some (Node (Some 1%nat) [] (bar "c" 2) None [] None (Some (body 3 (V3 1 0 1))))) by reflexivity.
  assert (L1 : live_parent three 1 0) by (split; [eexists; split; [exact H1|reflexivity]|rewrite H0; eauto]).
  assert (L2 : live_parent three 2 1) by (split; [eexists; split; [exact H2|reflexivity]|rewrite H1; eauto]).
  assert (L0 : no_parent three 0).
  { split; [rewrite H0; eauto|]. intros p [(n & Hn & E) _]. rewrite H0 in Hn. apply Some_inj in Hn as <-. discriminate. }
  split; [|split; [|split; [|split; [|split; [|split]]]]].
  - intros a Ha. cbn in Ha. repeat (apply elem_of_cons in Ha as [->|Ha]; [eauto|]). inversion Ha.
  - intros l1 a l2 p E [(n & Hn & Hp) _].
    destruct l1 as [|x [|y [|z [|z' l1]]]]; cbn in E; try discriminate; injection E; intros; subst.
    + rewrite H0 in Hn. apply Some_inj in Hn as <-. discriminate.
    + rewrite H1 in Hn. apply Some_inj in Hn as <-. cbn in Hp. injection Hp as <-. set_solver.
    + rewrite H2 in Hn. apply Some_inj in Hn as <-. cbn in Hp. injection Hp as <-. set_solver.
  - intros a m Ha Hm. cbn in Ha.
    repeat (apply elem_of_cons in Ha as [->|Ha];
      [first [rewrite H0 in Hm|rewrite H1 in Hm|rewrite H2 in Hm]; apply Some_inj in Hm as <-; unfold unit_joint, proper, unit_quat; cbn; split; [exact I|lra]|]).
    inversion Ha.
  - intros a Ha [_ Hn]. cbn in Ha.
    apply elem_of_cons in Ha as [->|Ha]; [reflexivity|].
    apply elem_of_cons in Ha as [->|Ha]; [destruct (Hn _ L1)|].
    apply elem_of_cons in Ha as [->|Ha]; [destruct (Hn _ L2)|]. inversion Ha.
  - assert (W0 : world three 0 (product iso1 [local_transform (bar "a" 0)])).
    { exists [0%nat], [local_transform (bar "a" 0)]. split; [apply path_root; exact L0|]. split; [|reflexivity].
      constructor; [|constructor]. eexists. split; [exact H0|reflexivity]. }
    assert (W2 : world three 2 (product iso1 [local_transform (bar "a" 0); local_transform (bar "b" 1); local_transform (bar "c" 2)])).
    { exists [2%nat; 1%nat; 0%nat], [local_transform (bar "a" 0); local_transform (bar "b" 1); local_transform (bar "c" 2)].
      split; [eapply path_step; [exact L2|]; eapply path_step; [exact L1|]; apply path_root; exact L0|]. split; [|reflexivity].
      constructor; [eexists; split; [exact H0|reflexivity]|]. constructor; [eexists; split; [exact H1|reflexivity]|].
      constructor; [eexists; split; [exact H2|reflexivity]|constructor]. }
    unfold rod_centers. cbn [c_nodes rod].
    replace (1, V3 0 0 1) with (in_mass (l_inertial (body 1 (V3 0 0 1))),
      move (product iso1 [local_transform (bar "a" 0)]) (tr (in_origin (l_inertial (body 1 (V3 0 0 1)))))).
    2:{ cbn [body link_with_inertial l_inertial in_mass in_origin tr]. f_equal.
        cbn [product foldl]. unfold bar, local_transform; cbn [j_origin j_type j_position]. unfold joint_transform. gv; ring. }
    replace (3, V3 4 0 1) with (in_mass (l_inertial (body 3 (V3 1 0 1))),
      move (product iso1 [local_transform (bar "a" 0); local_transform (bar "b" 1); local_transform (bar "c" 2)])
        (tr (in_origin (l_inertial (body 3 (V3 1 0 1)))))).
    2:{ cbn [body link_with_inertial l_inertial in_mass in_origin tr]. f_equal.
        cbn [product foldl]. unfold bar, local_transform; cbn [j_origin j_type j_position]. unfold joint_transform. gv; ring. }
    eapply lc_link; [exact H0|reflexivity|exact W0|].
    eapply lc_none; [exact H1|reflexivity|].
    eapply lc_link; [exact H2|reflexivity|exact W2|constructor].
  - unfold rod_centers. rewrite !rsum_cons, rsum_nil. cbn. lra.
  - unfold rod_centers. repeat constructor; cbn; lra.
Qed.
Example C29_case (t nx : nat) : exists s, run t (center_of_mass rod) (quiet three nx) = Done (V3 3 0 1) s.
Proof.
  destruct C29_case_hypotheses as (Hl & Hp & _ & _ & Hc & _).
  destruct (C29_mean t three nx rod Hl Hp) as (cs & h' & Hc' & Hr).
  assert (cs = rod_centers) as -> by (eapply centers_fun; apply centers_link_centers; eauto).
  eexists. rewrite Hr. f_equal. unfold mean, rod_centers. rewrite !rsum_cons, !rsum_nil. cbn [fst snd]. gv; field.
Qed.
