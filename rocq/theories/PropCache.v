(** * C89: what has been asked before does not change an answer *)
From Coq Require Import String NArith ZArith Floats.SpecFloat.
From stdpp Require Import gmap.
From Verif Require Import Scalar ScalarF Geometry Joint Link Prog NodeM ChainM FuncsM IkM RunLemmas
  SpecJoint SpecNode SpecGraph GraphProofs LinkProofs SpecChain ChainProofs SpecFK FKProofs SpecIk IkProofs IkProofs2
  SpecCom ComProofs CacheProofs Ex PropGraph PropChain PropFK PropIk.

Section Props.
  Context {T : Type} `{Sc : Scalar T}.
  Implicit Types (h : gmap nat (node T)).

  (** the two programs return the same value and leave states that differ in caches
      only, or both panic with the same message *)
  Definition same_answer {A} nx nx' (o o' : outcome T A) : Prop :=
    (exists x h h', o = Done x (quiet h nx) /\ o' = Done x (quiet h' nx') /\ heaps same_but_caches h h') \/
    (exists m s s', o = Panicked m s /\ o' = Panicked m s').
  Lemma alike_same {A} arm nx nx' (o o' : outcome T A) : alike arm nx nx' o o' -> same_answer nx nx' o o'.
  Proof.
    destruct o, o'; cbn; try contradiction.
    - intros (-> & h & h' & -> & -> & _ & Hu). left. eexists _, h, h'. split; [reflexivity|]. split; [reflexivity|]. apply unch_heaps. exact Hu.
    - intros ->. right. eauto.
  Qed.

  (** the solver *)
  Theorem C89_solver t t' ovf (la : linalg T) (sv : solver T) h h' nx nx' arm target c :
    chain_of h (c_nodes arm) arm -> all_live h (c_nodes arm) -> parents_first h (c_nodes arm) -> plain h (c_movable arm) ->
    heaps same_but_caches h h' ->
    same_answer nx nx' (run t (solve_with_constraints ovf la sv arm target c) (quiet h nx))
      (run t' (solve_with_constraints ovf la sv arm target c) (quiet h' nx')).
  Proof.
    intros Hc Hl Hp Hm Hu. apply unch_heaps in Hu. apply (alike_same arm). apply st_solve; [|exact Hu].
    split; [exact Hc|]. split; [exact Hl|]. split; [exact Hp|exact Hm].
  Qed.
  (** the queries and the setters of a chain *)
  Theorem C89_chain t t' h h' nx nx' arm ps :
    chain_of h (c_nodes arm) arm -> all_live h (c_nodes arm) -> parents_first h (c_nodes arm) -> plain h (c_movable arm) ->
    heaps same_but_caches h h' ->
    same_answer nx nx' (run t (joint_positions arm) (quiet h nx)) (run t' (joint_positions arm) (quiet h' nx')) /\
    same_answer nx nx' (run t (end_transform arm) (quiet h nx)) (run t' (end_transform arm) (quiet h' nx')) /\
    same_answer nx nx' (run t (update_transforms arm) (quiet h nx)) (run t' (update_transforms arm) (quiet h' nx')) /\
    same_answer nx nx' (run t (jacobian arm) (quiet h nx)) (run t' (jacobian arm) (quiet h' nx')) /\
    same_answer nx nx' (run t (set_joint_positions arm ps) (quiet h nx)) (run t' (set_joint_positions arm ps) (quiet h' nx')) /\
    same_answer nx nx' (run t (set_joint_positions_clamped arm ps) (quiet h nx)) (run t' (set_joint_positions_clamped arm ps) (quiet h' nx')).
  Proof.
    intros Hc Hl Hp Hm Hu. apply unch_heaps in Hu. assert (Hg : good arm h) by (split; [exact Hc|split; [exact Hl|split; [exact Hp|exact Hm]]]).
    repeat apply conj; apply (alike_same arm);
      [apply st_positions|apply st_end|apply st_update|apply st_jacobian|apply st_set|apply st_clamped]; assumption.
  Qed.
  Theorem C89_center_of_mass t t' h h' nx nx' arm :
    all_live h (c_nodes arm) -> parents_first h (c_nodes arm) -> heaps same_but_caches h h' ->
    exists x s s', run t (center_of_mass arm) (quiet h nx) = Done x s /\ run t' (center_of_mass arm) (quiet h' nx') = Done x s'.
  Proof.
    intros Hl Hp Hu. apply unch_heaps in Hu. pose proof (unch_frozen _ _ Hu) as Hf.
    destruct (center_of_mass_lemma t h nx arm Hl Hp) as (cs & k & Hcs & Hr).
    destruct (center_of_mass_lemma t' h' nx' arm (frozen_live _ _ _ Hf Hl) (frozen_parents_first _ _ _ Hf Hp)) as (cs' & k' & Hcs' & Hr').
    assert (cs' = cs) as -> by (eapply centers_fun; [exact Hcs'|eapply unch_centers; eauto]). eauto 8.
  Qed.

  (** a program that ran before and changed nothing but caches has no effect on the
      solver, whatever it asked ... *)
  Theorem C89_after {A} t (p : prog T A) x h1 ovf (la : linalg T) (sv : solver T) h nx nx1 arm target c :
    chain_of h (c_nodes arm) arm -> all_live h (c_nodes arm) -> parents_first h (c_nodes arm) -> plain h (c_movable arm) ->
    run t p (quiet h nx) = Done x (quiet h1 nx1) -> heaps same_but_caches h h1 ->
    same_answer nx nx1 (run t (solve_with_constraints ovf la sv arm target c) (quiet h nx))
      (run t (p ;;; solve_with_constraints ovf la sv arm target c) (quiet h nx)).
  Proof. intros Hc Hl Hp Hm Hr Hu. rewrite run_bind, Hr. cbn [obind]. apply C89_solver; assumption. Qed.
  (** ... such as the transforms or the Jacobian of any chain of the robot, taken
      before *)
  Theorem C89_asked t ovf (la : linalg T) (sv : solver T) h nx other arm target c :
    chain_of h (c_nodes arm) arm -> all_live h (c_nodes arm) -> parents_first h (c_nodes arm) -> plain h (c_movable arm) ->
    all_live h (c_nodes other) -> parents_first h (c_nodes other) ->
    same_answer nx nx (run t (solve_with_constraints ovf la sv arm target c) (quiet h nx))
      (run t (update_transforms other ;;; solve_with_constraints ovf la sv arm target c) (quiet h nx)) /\
    (chain_of h (c_nodes other) other ->
     same_answer nx nx (run t (solve_with_constraints ovf la sv arm target c) (quiet h nx))
       (run t (jacobian other ;;; solve_with_constraints ovf la sv arm target c) (quiet h nx))).
  Proof.
    intros Hc Hl Hp Hm Hlo Hpo. split.
    - destruct (update_transforms_lemma t h nx other Hlo Hpo) as (ws & k & Hr & _).
      destruct (update_transforms_unch _ _ _ _ _ _ Hlo Hr) as (k' & E & Hk). apply (f_equal heap) in E. cbn in E. subst k'.
      eapply C89_after; [exact Hc|exact Hl|exact Hp|exact Hm|exact Hr|apply unch_heaps; exact Hk].
    - intros Hco. destruct (locals_exist h _ Hlo) as [ts Hts].
      destruct (JacProofs.run_jacobian t h nx other ts (parents_first_order _ _ Hlo Hpo) Hco Hts) as (cols & k & Hr & _).
      destruct (jacobian_done _ _ _ _ _ _ Hlo Hr) as (k' & E & Hk & _). apply (f_equal heap) in E. cbn in E. subst k'.
      eapply C89_after; [exact Hc|exact Hl|exact Hp|exact Hm|exact Hr|apply unch_heaps; exact Hk].
  Qed.
End Props.
Print Assumptions C89_solver.
Print Assumptions C89_chain.
Print Assumptions C89_center_of_mass.
Print Assumptions C89_after.
Print Assumptions C89_asked.

(** ** the three slides of C32, before and after their transforms were asked for *)
Definition asked : sh spec_float := do_ (update_transforms pole3) (quiet (heap (after pole)) (nxt (after pole))).
Example C89_case : let s := after pole in let s' := asked in
  let p := solve_with_constraints true la1 (sv1 4) pole3 (up 30) (only_z []) in
  chain_of (heap s) (c_nodes pole3) pole3 /\ all_live (heap s) (c_nodes pole3) /\ parents_first (heap s) (c_nodes pole3) /\
  plain (heap s) (c_movable pole3) /\ heaps same_but_caches (heap s) (heap s') /\
  wt_of (heap s) 0 None /\ (exists w, wt_of (heap s') 0 (Some w)) /\
  (fst <$> final (run 0 p s)) = Some (Err (NotConvergedError 4 (V3 (f 0) (f 0) (f 18)) (V3 (f 0) (f 0) (f 0)))) /\
  (fst <$> final (run 0 p s')) = (fst <$> final (run 0 p s)).
Proof.
  cbn zeta. split; [unfold chain_of; vm_compute; repeat split|]. split; [apply all_live_check; vm_compute; reflexivity|].
  split; [apply parents_first_check; vm_compute; reflexivity|].
  split; [apply plain_check; [cbn; repeat constructor; set_solver|vm_compute; reflexivity]|].
  split.
  { assert (Hl : all_live (heap (after pole)) (c_nodes pole3)) by (apply all_live_check; vm_compute; reflexivity).
    assert (Hp : parents_first (heap (after pole)) (c_nodes pole3)) by (apply parents_first_check; vm_compute; reflexivity).
    destruct (update_transforms_lemma 0 (heap (after pole)) (nxt (after pole)) pole3 Hl Hp) as (ws & k & Hr & _).
    destruct (update_transforms_unch _ _ _ _ _ _ Hl Hr) as (k' & E & Hk). apply (f_equal heap) in E. cbn in E. subst k'.
    apply unch_heaps. unfold asked, do_. rewrite Hr. exact Hk. }
  split; [apply wt_none_check; vm_compute; reflexivity|].
  split; [apply (wt_some_check _ _ (fun _ => 0)); vm_compute; reflexivity|].
  split; vm_compute; reflexivity.
Qed.

(** C89 fails for an arm whose base is not in the chain: the solver then takes the
    direction of the slide from the base's cache.  [turned w]: a slide on a base whose
    cache holds [w]; the base itself is not turned. *)
Definition turned (w : iso spec_float) : gmap nat (node spec_float) :=
  let base := fix_at "base" iso1 in
  <[0 := Node None [1] (joint_set_wt base w) None [] None None]>
    (<[1 := Node (Some 0) [] (lin_at "slide" iso1) None [] None None]> ∅).
Definition half_turn : iso spec_float := Iso (V3 (f 0) (f 0) (f 0)) (Qt (f 1) (f 0) (f 0) (f 0)).
Definition slide : chain := Chain [1] [1] 1.
Theorem C89_cut_arm_refuted :
  let p := solve_with_constraints true la1 (sv1 4) slide (up 3) (only_z []) in
  chain_of (turned iso1) (c_nodes slide) slide /\ all_live (turned iso1) (c_nodes slide) /\ plain (turned iso1) (c_movable slide) /\
  heaps same_but_caches (turned iso1) (turned half_turn) /\
  (fst <$> final (run 0 p (quiet (turned iso1) 2))) = Some (Ok tt) /\
  exists e, (fst <$> final (run 0 p (quiet (turned half_turn) 2))) = Some (Err e).
Proof.
  cbn zeta. split; [unfold chain_of; vm_compute; repeat split|]. split; [apply all_live_check; vm_compute; reflexivity|].
  split; [apply plain_check; [cbn; repeat constructor; set_solver|vm_compute; reflexivity]|].
  split.
  { intros a. destruct a as [|[|a]]; try (cbn; repeat split; fail).
    unfold turned. rewrite !lookup_insert_ne, lookup_empty by lia. exact I. }
  split; [vm_compute; reflexivity|]. eexists. vm_compute. reflexivity.
Qed.
Print Assumptions C89_cut_arm_refuted.
