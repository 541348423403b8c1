(** * C85: the solver does not care where the robot stands *)
From Coq Require Import String Reals Lra Lia NArith Sorting.Sorted.
From stdpp Require Import gmap.
From Verif Require Import Scalar ScalarR Geometry Joint Link Prog NodeM ChainM FuncsM IkM RunLemmas SpecNode SpecGraph SpecChain SpecFK SpecIk SpecGeom RGeom
  SpecStep LinArm LuM SvdM SpecLin LinAlgR SpecBase BaseLin BaseProofs BaseSolve PropStep PropLu PropSvd2.
Local Open Scope R_scope.

(** C85: the robot and the target are carried by the same motion [g].  The solver gives the same
    answer, moves the joints in the same way, and panics with the same message if it panics. *)
Theorem C85_same_solution (t : nat) ovf (h h' : gmap nat (node R)) nx arm e l root (sv : solver R) target g (c : constraints) dec :
  path_up h e (l ++ [root]) -> chain_of h (rev (l ++ [root])) arm ->
  (forall a n, a ∈ l ++ [root] -> h !! a = Some n -> unit_joint (n_joint n)) ->
  proper target -> proper g -> whole c -> decomposes dec -> carried g root h h' ->
  carried_outcome (turned_answer g) g root
    (run t (solve_with_constraints ovf (svd_linalg na_lu_solve dec) sv arm target c) (quiet h nx))
    (run t (solve_with_constraints ovf (svd_linalg na_lu_solve dec) sv arm (iso_mul g target) c) (quiet h' nx)).
Proof.
  intros Hp Hc Hu Ht Hg Hw Hd Hh.
  exact (solve_carried g root arm e l target _ Hg Ht (nalgebra_frame_free dec Hd) t ovf sv h h' nx c Hw Hh (conj Hp (conj Hc Hu))).
Qed.
Print Assumptions C85_same_solution.
(** C85: in particular a target is reached from the one place exactly if it is from the other,
    and then with the same joint positions *)
Theorem C85_same_positions (t : nat) ovf (h h' : gmap nat (node R)) nx arm e l root (sv : solver R) target g (c : constraints) dec s :
  path_up h e (l ++ [root]) -> chain_of h (rev (l ++ [root])) arm ->
  (forall a n, a ∈ l ++ [root] -> h !! a = Some n -> unit_joint (n_joint n)) ->
  proper target -> proper g -> whole c -> decomposes dec -> carried g root h h' ->
  run t (solve_with_constraints ovf (svd_linalg na_lu_solve dec) sv arm target c) (quiet h nx) = Done (Ok tt) s ->
  exists s', run t (solve_with_constraints ovf (svd_linalg na_lu_solve dec) sv arm (iso_mul g target) c) (quiet h' nx) = Done (Ok tt) s' /\
    forall a, position_at (heap s') a = position_at (heap s) a.
Proof.
  intros Hp Hc Hu Ht Hg Hw Hd Hh E.
  pose proof (C85_same_solution t ovf h h' nx arm e l root sv target g c dec Hp Hc Hu Ht Hg Hw Hd Hh) as H. rewrite E in H.
  destruct (run t (solve_with_constraints ovf (svd_linalg na_lu_solve dec) sv arm (iso_mul g target) c) (quiet h' nx)) as [x s'|? ?|? ?|?|]; try contradiction.
  destruct H as [Hx [Hs _]]. cbn in Hx. subst x. exists s'. split; [reflexivity|]. intros a. specialize (Hs a). unfold position_at.
  destruct (heap s !! a) as [n|], (heap s' !! a) as [n'|]; try contradiction; [|reflexivity]. cbn. f_equal. exact (proj1 (proj2 (proj2 (nrel_fields g root a n n' Hs)))).
Qed.
Print Assumptions C85_same_positions.

(** A gantry, carried by a turn about the diagonal that takes x to y, y to z and z to x, and a
    shift. *)
Definition cube : iso R := Iso (V3 1 2 3) (Qt (/ 2) (/ 2) (/ 2) (/ 2)).
Lemma cube_proper : proper cube.
Proof. unfold proper, unit_quat, cube. cbn. lra. Qed.
Lemma carried_there h root n : h !! root = Some n -> carried cube root h (<[root := with_origin n (iso_mul cube (j_origin (n_joint n)))]> h).
Proof.
  intros Hn a. destruct (decide (a = root)) as [->|Ha].
  - rewrite lookup_insert, Hn. repeat split.
  - rewrite lookup_insert_ne by auto. destruct (h !! a); [repeat split|exact I].
Qed.
Definition frame_rows : constraints := Constraints true true true false false false [].
Example C85_case : exists dec h', decomposes dec /\ carried cube 0 gantry h' /\ path_up gantry 2%nat ([2; 1] ++ [0])%nat /\ chain_of gantry (rev ([2; 1] ++ [0])%nat) arm3 /\
  (forall a n, a ∈ ([2; 1] ++ [0])%nat -> gantry !! a = Some n -> unit_joint (n_joint n)) /\ proper goal /\ proper cube /\ whole frame_rows /\
  position_x frame_rows = true.
Proof.
  destruct C79_decomposes as (dec & Hd & _). exists dec. eexists. split; [exact Hd|]. split; [eapply carried_there; reflexivity|].
  destruct gantry_arm as (Hp & Hc & Hs). split; [exact Hp|]. split; [exact Hc|]. split; [|split; [exact proper_1|split; [exact cube_proper|split; [repeat split|reflexivity]]]].
  intros a n Ha Hn. assert (a = 0 \/ a = 1 \/ a = 2)%nat as [-> | [-> | ->]] by set_solver; vm_compute in Hn; apply Some_inj in Hn as <-; (split; [|exact proper_1]); unfold unit_type, unit_axis; cbn; lra.
Qed.

Definition still (j : joint R) : node R := Node None [] j None [] None None.
(** A slide along x that may only be asked for x. *)
Definition slide : gmap nat (node R) := <[0%nat := still (track "a" (V3 1 0 0))]> ∅.
Definition slide1 : chain := Chain [0%nat] [0%nat] 1.
Definition only_x : constraints := Constraints true false false false false false [].
(** C85: with some of the three coordinates only, the answer depends on the place *)
Theorem C85_whole_refuted : exists (h h' : gmap nat (node R)) arm e root target g (c : constraints) (sv : solver R),
  path_up h e [root] /\ chain_of h [root] arm /\ (forall a n, h !! a = Some n -> unit_joint (n_joint n)) /\ proper target /\ proper g /\ carried g root h h' /\
  forall t ovf nx dec, 
    (exists d s, run t (solve_one_loop_with_constraints ovf (svd_linalg na_lu_solve dec) sv arm target (flags c) []) (quiet h nx) = Done (Ok d) s) /\
    (exists s, run t (solve_one_loop_with_constraints ovf (svd_linalg na_lu_solve dec) sv arm (iso_mul g target) (flags c) []) (quiet h' nx) = Done (Err InverseMatrixError) s).
Proof.
  pose (n0 := still (track "a" (V3 1 0 0))). set (g := Iso (V3 0 0 0) (Qt (/ 2) (/ 2) (/ 2) (/ 2)) : iso R).
  set (h' := <[0%nat := with_origin n0 (iso_mul g iso1)]> slide).
  assert (H0 : slide !! 0%nat = Some n0) by reflexivity. assert (H0' : h' !! 0%nat = Some (with_origin n0 (iso_mul g iso1))) by reflexivity.
  assert (Hg : proper g) by (unfold proper, unit_quat, g; cbn; lra).
  exists slide, h', slide1, 0%nat, 0%nat, iso1, g, only_x, half.
  assert (Hnone : forall (h : gmap nat (node R)) n, h !! 0%nat = Some n -> n_parent n = None -> path_up h 0%nat [0%nat]).
  { intros h n Hn Hp. apply path_root. split; [rewrite Hn; eauto|]. intros p [(m & Hm & E) _]. congruence. }
  assert (Hall : forall a n, slide !! a = Some n -> a = 0%nat /\ n = n0).
  { intros a n Hn. unfold slide in Hn. destruct (decide (a = 0%nat)) as [->|Ha]; [rewrite lookup_insert in Hn; apply Some_inj in Hn; split; [reflexivity|symmetry; exact Hn]|rewrite lookup_insert_ne in Hn by auto; rewrite lookup_empty in Hn; discriminate]. }
  split; [eapply Hnone; [exact H0|reflexivity]|]. split; [repeat split|]. split; [|split; [exact proper_1|split; [exact Hg|split]]].
  - intros a n Hn. apply Hall in Hn as [_ ->]. split; [|exact proper_1]. unfold unit_type, unit_axis. cbn. lra.
  - intros a. destruct (decide (a = 0%nat)) as [->|Ha].
    + unfold h'. rewrite lookup_insert, H0. repeat split.
    + unfold h'. rewrite lookup_insert_ne by auto. destruct (slide !! a); [repeat split|exact I].
  - intros t ovf nx dec.
    assert (Hok : arm_ok slide1 0%nat [0%nat] slide).
    { split; [eapply Hnone; [exact H0|reflexivity]|]. split; [repeat split|]. intros a n _ Hn. apply Hall in Hn as [_ ->]. split; [split; [exact proper_1|exact I]|reflexivity]. }
    assert (Hok' : arm_ok slide1 0%nat [0%nat] h').
    { split; [eapply Hnone; [exact H0'|reflexivity]|]. split; [repeat split|]. intros a n Ha Hn. assert (a = 0%nat) as -> by set_solver. rewrite H0' in Hn. apply Some_inj in Hn as <-.
      split; [split; [|exact I]|reflexivity]. change (proper (iso_mul g iso1)). rewrite iso_mul_1_r. exact Hg. }
    assert (Hlive : forall (h : gmap nat (node R)) n, h !! 0%nat = Some n -> all_live h (c_nodes slide1)).
    { intros h n Hn a Ha. assert (a = 0%nat) as -> by (cbn in Ha; set_solver). rewrite Hn. eauto. }
    split.
    + destruct (arm_jacobian slide1 0%nat [0%nat] t slide nx [track "a" (V3 1 0 0)] Hok) as (Hw & h1 & HJ); [constructor; [eexists; split; reflexivity|constructor]|].
      assert (Ed : dirs iso1 [track "a" (V3 1 0 0)] = [V3 1 0 0]).
      { unfold track. cbn [dirs j_type]. unfold local_transform. cbn [j_type j_origin j_position joint_transform]. apply (f_equal2 cons); [gv; ring|reflexivity]. }
      rewrite Ed in HJ.
      pose proof (C66_iteration t ovf (svd_linalg na_lu_solve dec) half slide nx slide1 iso1 only_x [] _ _ _ (proj1 (proj2 Hok)) (Hlive slide n0 H0) ltac:(apply NoDup_singleton) (SSorted_nil _) (Forall_nil_2 _) eq_refl (fun _ _ => eq_refl) Hw HJ) as [_ H].
      destruct H as (x & _ & _ & Hm); [|destruct Hm as (h2 & w & Hr & _); eauto].
      change (regular (Mat 1 [[1]])). intros z [Hz1 Hz2]. destruct z as [|z []]; try discriminate. cbn in Hz2 |- *. injection Hz2 as Hz2. unfold zeros. cbn. f_equal. lra.
    + destruct (arm_jacobian slide1 0%nat [0%nat] t h' nx [n_joint (with_origin n0 (iso_mul g iso1))] Hok') as (Hw & h1 & HJ); [constructor; [eexists; split; [exact H0'|reflexivity]|constructor]|].
      assert (Ed : dirs iso1 [n_joint (with_origin n0 (iso_mul g iso1))] = [V3 0 1 0]).
      { change (dirs iso1 [Joint "a" (Linear (V3 1 0 0)) 0 0 None (iso_mul g iso1) None None] = [V3 0 1 0]). rewrite iso_mul_1_r. unfold g.
        cbn [dirs j_type]. unfold local_transform. cbn [j_type j_origin j_position joint_transform]. apply (f_equal2 cons); [gv; field|reflexivity]. }
      rewrite Ed in HJ.
      pose proof (C66_iteration t ovf (svd_linalg na_lu_solve dec) half h' nx slide1 (iso_mul g iso1) only_x [] _ _ _ (proj1 (proj2 Hok')) (Hlive h' _ H0') ltac:(apply NoDup_singleton) (SSorted_nil _) (Forall_nil_2 _) eq_refl (fun _ _ => eq_refl) Hw HJ) as [H _].
      destruct H as (Hr & _); [|eauto].
      change (~ regular (Mat 1 [[0]])). intros Hreg. specialize (Hreg [1]). assert (E : [1] = zeros 1); [|unfold zeros in E; cbn in E; injection E; lra].
      apply Hreg. split; [reflexivity|]. cbn. f_equal. lra.
Qed.
Print Assumptions C85_whole_refuted.
