(** * C84: mimic joints in chains and in the solver's arm *)
From Coq Require Import String ZArith Lia Floats.SpecFloat.
From stdpp Require Import gmap.
From Verif Require Import Scalar ScalarF Geometry Joint Link Prog NodeM ChainM FuncsM IkM RunLemmas SpecJoint SpecNode SpecGraph SpecChain ChainProofs SpecFK FKProofs
  SpecIk IkProofs Ex PropGraph PropFK PropIk SpecCouple CoupleProofs.

(** C84: when set_joint_positions of a chain succeeds, each joint that follows no other is at
    the position given for it, each joint that mimics it (in the chain or outside) is at the
    multiple of that, whatever was given for it, and nothing else has moved *)
Theorem C84_set_positions {T} `{Scalar T} t (h : gmap nat (node T)) nx c ps s :
  chain_of h (c_nodes c) c -> mimic_wf h -> NoDup (c_movable c) -> one_driver h (c_movable c) ->
  run t (set_joint_positions c ps) (quiet h nx) = Done (Ok tt) s ->
  exists h', s = quiet h' nx /\ heaps same_but_position h h' /\
    (forall i a p, c_movable c !! i = Some a -> ps !! i = Some p -> free_node h a ->
      position_at h' a = Some p /\
      forall b, drives h a b -> exists bn m, h !! b = Some bn /\ n_mimic bn = Some m /\ position_at h' b = Some (follow_position m p)) /\
    (forall b, ~ (exists a, a ∈ c_movable c /\ free_node h a /\ (b = a \/ drives h a b)) -> h' !! b = h !! b).
Proof.
  intros Hc Hwf Hnd Hone E. unfold set_joint_positions in E. destruct (decide _) as [Hlen|]; [|discriminate].
  assert (Hd : c_dof c = length (c_movable c)) by (destruct Hc as (_ & -> & ->); reflexivity).
  assert (Hz : (zip (c_movable c) ps).*1 = c_movable c).
  { rewrite fst_zip; [reflexivity|]. lia. }
  destruct (set_each t nx (zip (c_movable c) ps) h s) as (h' & -> & Ff & Hp & Ho); rewrite ?Hz; try assumption.
  { intros a Ha. destruct Hc as (_ & Hm & _). rewrite Hm in Ha. apply elem_of_list_In, filter_In in Ha as [_ Ha]. unfold node_movable in Ha. destruct (h !! a); [eauto|discriminate]. }
  exists h'. split; [reflexivity|]. split; [apply frozen_heaps; exact Ff|]. split; [|rewrite Hz in Ho; exact Ho].
  intros i a p Hi Hpi Hfr. destruct (Hp a p) as [Hpa Hpc]; [eapply zip_lookup; eauto|exact Hfr|]. split; [exact Hpa|].
  intros b Hb. destruct (Hpc b Hb) as (q & (bn & m & Hbn & Hm & ->) & Hq). eauto.
Qed.
Print Assumptions C84_set_positions.

(** C84: an arm whose mimic joints mimic joints of the arm, all in step at the start and inside
    their limits: a failing solver puts every joint back (C32 asks for an arm without mimic
    joints) *)
Theorem C84_err_restores {T} `{Scalar T} t ovf (la : linalg T) (sv : solver T) (h : gmap nat (node T)) nx arm target c e s :
  chain_of h (c_nodes arm) arm -> all_live h (c_nodes arm) -> coupled h (c_movable arm) -> inside_limits h (c_movable arm) ->
  run t (solve_with_constraints ovf la sv arm target c) (quiet h nx) = Done (Err e) s ->
  exists h', s = quiet h' nx /\ heaps same_but_caches h h'.
Proof. exact (solve_err_coupled t ovf la sv h nx arm target c e s). Qed.
Print Assumptions C84_err_restores.

(** ** cases: two sliding joints, the second going twice as far as the first *)
Definition telescope : prog spec_float unit :=
  a <- node_new (lin_at "lower" iso1) ;; b <- node_new (lin_at "upper" iso1) ;; node_set_parent b a ;;; node_set_mimic_parent b a (Mimic (f 2) (f 0)).
(** the shortest of all solutions, for two equal columns *)
Definition shared : linalg spec_float := Linalg (fun _ _ => None) (fun m b => match b with [x] => Some (map (fun _ => sdiv x (f 2)) (m_cols m)) | _ => None end) (fun _ => None).
Lemma telescope_free : free_node (heap (after telescope)) 0.
Proof. eexists. split; vm_compute; reflexivity. Qed.
Lemma telescope_drives a c : drives (heap (after telescope)) a c -> a = 0 /\ c = 1.
Proof.
  intros (n & Hn & Hc). apply elem_of_map_to_list in Hn. apply elem_of_list_In in Hn, Hc.
  assert (K : forallb (fun kn => forallb (fun c => Nat.eqb (fst kn) 0 && Nat.eqb c 1) (n_mimic_children (snd kn))) (map_to_list (heap (after telescope))) = true) by (vm_compute; reflexivity).
  rewrite forallb_forall in K. specialize (K _ Hn). rewrite forallb_forall in K. specialize (K _ Hc). apply andb_prop in K as [K1 K2]. cbn in K1.
  apply Nat.eqb_eq in K1, K2. auto.
Qed.
Example C84_set_positions_case : let h := heap (after telescope) in let c := pole2 in
  chain_of h (c_nodes c) c /\ mimic_wf h /\ NoDup (c_movable c) /\ one_driver h (c_movable c) /\ free_node h 0 /\ drives h 0 1 /\
  (fst <$> final (run 0 (set_joint_positions c [f 3; f 100]) (after telescope))) = Some (Ok tt) /\
  positions c (do_ (set_joint_positions c [f 3; f 100]) (after telescope)) = [Some (f 3); Some (f 6)].
Proof.
  cbn zeta. split; [unfold chain_of; vm_compute; repeat split|]. split; [apply mimic_wfb_sound; vm_compute; reflexivity|].
  split; [cbn; repeat constructor; set_solver|]. split.
  { intros a b c _ _ _ _ H1 H2. apply telescope_drives in H1 as [-> _], H2 as [-> _]. reflexivity. }
  split; [exact telescope_free|]. split; [eexists; split; [vm_compute; reflexivity|left]|]. vm_compute. split; reflexivity.
Qed.
Lemma telescope_coupled : coupled (heap (after telescope)) (c_movable pole2).
Proof.
  split; [apply mimic_wfb_sound; vm_compute; reflexivity|]. split.
  - intros a c p _ _ Hd Hp. apply telescope_drives in Hd as [-> ->]. vm_compute in Hp. injection Hp as <-.
    eexists _, _. split; [vm_compute; reflexivity|]. split; [reflexivity|]. split; [vm_compute; reflexivity|]. split; [discriminate|]. intros r Hr. discriminate Hr.
  - intros c Hc. cbn in Hc. apply elem_of_cons in Hc as [->|Hc]; [left; exact telescope_free|]. apply elem_of_list_singleton in Hc as ->. right. exists 0.
    split; [set_solver|]. split; [exact telescope_free|]. eexists. split; [vm_compute; reflexivity|left].
Qed.
(** no convergence within one iteration: the arm is put back although the second joint, which
    had moved, takes no orders *)
Example C84_err_case : let s := after telescope in let p := solve_with_constraints true shared (Solver (f 1) (f 1) (sdiv (f 1) (f 2)) 1 None) pole2 (up 6) (only_z []) in
  chain_of (heap s) (c_nodes pole2) pole2 /\ all_live (heap s) (c_nodes pole2) /\ coupled (heap s) (c_movable pole2) /\ inside_limits (heap s) (c_movable pole2) /\
  (fst <$> final (run 0 p s)) = Some (Err (NotConvergedError 1 (V3 (f 0) (f 0) (f 3)) (V3 (f 0) (f 0) (f 0)))) /\
  positions pole2 (do_ p s) = [Some (f 0); Some (f 0)].
Proof.
  cbn zeta. split; [unfold chain_of; vm_compute; repeat split|]. split; [apply all_live_check; vm_compute; reflexivity|]. split; [exact telescope_coupled|].
  split; [apply inside_check; vm_compute; reflexivity|]. vm_compute. split; reflexivity.
Qed.
(** C84: success does not keep mimic joints in step: both joints of the telescope are moved
    alike, and the arm is at height 6.  Setting the joints to the very positions read from
    the arm then takes it to height 9. *)
Theorem C84_success_refuted : let s := after telescope in let p := solve_with_constraints true shared (sv1 5) pole2 (up 6) (only_z []) in let s' := do_ p s in
  coupled (heap s) (c_movable pole2) /\ (fst <$> final (run 0 p s)) = Some (Ok tt) /\ positions pole2 s' = [Some (f 3); Some (f 3)] /\ height pole2 s' = Some (f 6) /\
  height pole2 (do_ (ps <- joint_positions pole2 ;; set_joint_positions pole2 ps) s') = Some (f 9).
Proof. cbn zeta. split; [exact telescope_coupled|]. vm_compute. repeat split. Qed.
Print Assumptions C84_success_refuted.
