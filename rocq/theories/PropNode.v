(** * C06-C09: Node::set_joint_position and its clamped / unchecked variants *)
From Coq Require Import String ZArith Floats.SpecFloat.
From stdpp Require Import gmap.
From Verif Require Import Scalar ScalarF Geometry Joint Link Prog NodeM
  SpecJoint SpecNode NodeProofs Ex.

(** C06: on success the node is at [p], every mimic child is at
    [p * multiplier + origin], nothing else changes. *)
Theorem C06_mimic_children_follow {T} `{Scalar T} (t : nat) (h : gmap nat (node T)) nx a n p s :
  mimic_wf h -> h !! a = Some n -> n_mimic_parent n = None ->
  run t (node_set_joint_position a p) (quiet h nx) = Done (Ok tt) s ->
  exists h', s = quiet h' nx /\
    (exists n', h' !! a = Some n' /\ node_moved n p n') /\
    (forall c, c ∈ n_mimic_children n -> followed h p c h') /\
    (forall b, b <> a -> b ∉ n_mimic_children n -> h' !! b = h !! b).
Proof. exact (set_position_ok_lemma t h nx a n p s). Qed.
Print Assumptions C06_mimic_children_follow.

(** C06: it succeeds exactly when the joint and all its mimic children accept. *)
Theorem C06_succeeds_iff {T} `{Scalar T} (t : nat) (h : gmap nat (node T)) nx a n p :
  mimic_wf h -> h !! a = Some n -> n_mimic_parent n = None ->
  (exists s, run t (node_set_joint_position a p) (quiet h nx) = Done (Ok tt) s) <->
  admissible (n_joint n) p /\
  (forall c j q, c ∈ n_mimic_children n -> mimic_target h c p j q -> admissible j q).
Proof. exact (set_position_ok_iff_lemma t h nx a n p). Qed.
Print Assumptions C06_succeeds_iff.

(** C07: a node with a mimic parent (weak reference, dead or alive) ignores the
    command whatever the value. *)
Theorem C07_mimic_child_ignores {T} `{Scalar T} (t : nat) (h : gmap nat (node T)) nx a n w p :
  h !! a = Some n -> n_mimic_parent n = Some w ->
  run t (node_set_joint_position a p) (quiet h nx) = Done (Ok tt) (quiet h nx).
Proof. exact (set_position_mimic_child_lemma t h nx a n w p). Qed.
Print Assumptions C07_mimic_child_ignores.

(** C08: on failure either nothing changed and the error is the joint's own, or
    the node and the mimic children before the rejecting one have moved and
    nothing else has; in particular children of mimic children never move. *)
Theorem C08_failing_mimic_update {T} `{Scalar T} (t : nat) (h : gmap nat (node T)) nx a n p e s :
  mimic_wf h -> h !! a = Some n -> n_mimic_parent n = None ->
  run t (node_set_joint_position a p) (quiet h nx) = Done (Err e) s ->
  (snd (joint_set (n_joint n) p) = Err e /\ s = quiet h nx) \/
  (admissible (n_joint n) p /\ exists l1 c l2 j q h',
     n_mimic_children n = l1 ++ c :: l2 /\ s = quiet h' nx /\
     mimic_target h c p j q /\ snd (joint_set j q) = Err e /\
     (forall b j' q', b ∈ l1 -> mimic_target h b p j' q' -> admissible j' q') /\
     (exists n', h' !! a = Some n' /\ node_moved n p n') /\
     (forall b, b ∈ l1 -> followed h p b h') /\
     (forall b, b <> a -> b ∉ l1 -> h' !! b = h !! b)).
Proof. exact (set_position_err_lemma t h nx a n p e s). Qed.
Print Assumptions C08_failing_mimic_update.

(** C09: clamped and unchecked setters touch the addressed node only. *)
Theorem C09_clamped_no_propagation {T} `{Scalar T} (t : nat) (h : gmap nat (node T)) nx a n p :
  h !! a = Some n ->
  exists h', run t (node_set_joint_position_clamped a p) (quiet h nx) = Done tt (quiet h' nx) /\
    h' !! a = Some (set_n_joint n (joint_set_clamped (n_joint n) p)) /\
    (forall b, b <> a -> h' !! b = h !! b).
Proof. exact (set_clamped_frame_lemma t h nx a n p). Qed.
Print Assumptions C09_clamped_no_propagation.

Theorem C09_unchecked_no_propagation {T} `{Scalar T} (t : nat) (h : gmap nat (node T)) nx a n p :
  h !! a = Some n ->
  exists h', run t (node_set_joint_position_unchecked a p) (quiet h nx) = Done tt (quiet h' nx) /\
    (exists n', h' !! a = Some n' /\ node_moved n p n') /\
    (forall b, b <> a -> h' !! b = h !! b).
Proof. exact (set_unchecked_frame_lemma t h nx a n p). Qed.
Print Assumptions C09_unchecked_no_propagation.

(** ** Concrete cases: node 0 drives 1, 2, 3 (2*p+1, p, p); 2 is limited to 0..1;
    4 follows 1. *)
Definition ex_mimic : prog spec_float unit :=
  a <- node_new (lin "a" 0 10) ;; c1 <- node_new (lin "c1" 0 100) ;;
  c2 <- node_new (lin "c2" 0 1) ;; c3 <- node_new (lin "c3" 0 100) ;;
  d <- node_new (lin "d" 0 100) ;;
  node_set_mimic_parent c1 a (Mimic (f 2) (f 1)) ;;;
  node_set_mimic_parent c2 a (Mimic (f 1) (f 0)) ;;;
  node_set_mimic_parent c3 a (Mimic (f 1) (f 0)) ;;;
  node_set_mimic_parent d c1 (Mimic (f 1) (f 0)).

Example C06_case_hypotheses :
  mimic_wf (heap (after ex_mimic)) /\
  match heap (after ex_mimic) !! 0 with
  | Some n => n_mimic_parent n = None /\ n_mimic_children n = [1; 2; 3]
  | None => False
  end.
Proof. split; [apply mimic_wfb_sound; vm_compute; reflexivity|]. vm_compute. repeat split; reflexivity. Qed.

(** everyone accepts 1: c1 goes to 3, c2 and c3 to 1, d (child of c1) stays *)
Example C06_case :
  match run 0 (node_set_joint_position 0 (f 1)) (after ex_mimic) with
  | Done r s => r = Ok tt /\ map (pos_of s) [0; 1; 2; 3; 4] =
      [Some (f 1); Some (f 3); Some (f 1); Some (f 1); Some (f 0)]
  | _ => False
  end.
Proof. vm_compute. auto. Qed.

(** c1 ignores NaN, out of limits values *)
Example C07_case :
  (n_mimic_parent <$> heap (after ex_mimic) !! 1) = Some (Some 0) /\
  match run 0 (r1 <- node_set_joint_position 1 S754_nan ;;
               r2 <- node_set_joint_position 1 (f 1000) ;; Ret (r1, r2)) (after ex_mimic) with
  | Done rs s => rs = (Ok tt, Ok tt) /\ map (pos_of s) [0; 1; 2; 3; 4] =
      [Some (f 0); Some (f 0); Some (f 0); Some (f 0); Some (f 0)]
  | _ => False
  end.
Proof. vm_compute. auto. Qed.

(** c2 rejects 5: a and c1 have moved, c2 and c3 have not *)
Example C08_case_not_atomic :
  match run 0 (node_set_joint_position 0 (f 5)) (after ex_mimic) with
  | Done r s => r = Err (OutOfLimitError "c2" (f 5) (f 1) (f 0)) /\
      map (pos_of s) [0; 1; 2; 3; 4] =
      [Some (f 5); Some (f 11); Some (f 0); Some (f 0); Some (f 0)]
  | _ => False
  end.
Proof. vm_compute. auto. Qed.

(** clamped setters break the mimic relation and move mimic children directly *)
Example C09_case_relation_broken :
  match run 0 (node_set_joint_position_clamped 0 (f 5) ;;;
               node_set_joint_position_clamped 1 (f 7)) (after ex_mimic) with
  | Done _ s => map (pos_of s) [0; 1; 2; 3; 4] =
      [Some (f 5); Some (f 7); Some (f 0); Some (f 0); Some (f 0)]
  | _ => False
  end.
Proof. vm_compute. auto. Qed.
