(** * C13, C15, C16, C17, C26, C27: chains and their bulk setters *)
From Coq Require Import String ZArith Floats.SpecFloat NArith.
From stdpp Require Import gmap.
From Verif Require Import Scalar ScalarF Geometry Joint Link Prog NodeM ChainM IkM SpecJoint SpecNode
  SpecGraph GraphProofs LinkProofs SpecChain ChainProofs IkLookup Ex PropGraph.

(** C13: [chain_of h l c] is the specification: nodes [l], movable ones in order,
    [dof] their number. *)
Theorem C13_from_nodes {T} `{Scalar T} (t : nat) (h : gmap nat (node T)) nx l :
  all_live h l ->
  exists c, run t (from_nodes l) (quiet h nx) = Done c (quiet h nx) /\ chain_of h l c.
Proof. exact (run_from_nodes t h nx l). Qed.
Print Assumptions C13_from_nodes.

Theorem C13_from_root {T} `{Scalar T} (t : nat) (h : gmap nat (node T)) nx tr fuel :
  tree_in h tr -> tsize tr < fuel ->
  exists c, run t (from_root fuel (troot tr)) (quiet h nx) = Done c (quiet h nx) /\
    chain_of h (preorder_last tr) c.
Proof. exact (run_from_root t h nx tr fuel). Qed.
Print Assumptions C13_from_root.

Theorem C13_from_end {T} `{Scalar T} (t : nat) (h : gmap nat (node T)) nx e l fuel :
  path_up h e l -> length l < fuel ->
  exists c, run t (from_end fuel e) (quiet h nx) = Done c (quiet h nx) /\ chain_of h (rev l) c.
Proof. exact (run_from_end t h nx e l fuel). Qed.
Print Assumptions C13_from_end.

Theorem C13_from_end_to_root {T} `{Scalar T} (t : nat) (h : gmap nat (node T)) nx e r l fuel :
  path_up h e l -> length l < fuel ->
  exists c, run t (from_end_to_root fuel e r) (quiet h nx) = Done c (quiet h nx) /\
    (forall l1 l2, l = l1 ++ r :: l2 -> chain_of h (rev (l1 ++ [r])) c) /\
    (r ∉ l -> chain_of h (rev l) c).
Proof. exact (run_from_end_to_root t h nx e r l fuel). Qed.
Print Assumptions C13_from_end_to_root.

(** C13: [iter_joints] visits the joints of the movable nodes, in order (whatever
    pure use [g] the caller makes of each joint) *)
Theorem C13_iter_joints {T A} `{Scalar T} (t : nat) (h : gmap nat (node T)) nx c (g : joint T -> A) :
  all_live h (c_movable c) ->
  exists l, run t (iter_joints c (fun j => Ret (g j))) (quiet h nx) = Done l (quiet h nx) /\
    map Some l = map (fun a => g <$> (n_joint <$> h !! a)) (c_movable c).
Proof. exact (run_iter_joints_ret t h nx c g). Qed.
Print Assumptions C13_iter_joints.

Theorem C15_set_then_get {T} `{Scalar T} (t : nat) (h : gmap nat (node T)) nx c ps :
  chain_of h (c_nodes c) c -> plain h (c_movable c) -> length ps = c_dof c ->
  (forall i a p, c_movable c !! i = Some a -> ps !! i = Some p -> admissible_at h a p) ->
  exists h', run t (set_joint_positions c ps) (quiet h nx) = Done (Ok tt) (quiet h' nx) /\
    run t (joint_positions c) (quiet h' nx) = Done ps (quiet h' nx) /\
    (forall i a p, c_movable c !! i = Some a -> ps !! i = Some p -> moved_at h h' a p) /\
    (forall b, b ∉ c_movable c -> h' !! b = h !! b).
Proof. exact (set_positions_roundtrip_lemma t h nx c ps). Qed.
Print Assumptions C15_set_then_get.

Theorem C15_size_mismatch {T} `{Scalar T} (t : nat) (h : gmap nat (node T)) nx c (ps : list T) :
  length ps <> c_dof c ->
  run t (set_joint_positions c ps) (quiet h nx)
  = Done (Err (SizeMismatchError (length ps) (c_dof c))) (quiet h nx).
Proof. exact (set_positions_mismatch_lemma t h nx c ps). Qed.
Print Assumptions C15_size_mismatch.

(** C16: joint [i] (node [a]) is the first to reject its value [p]. *)
Theorem C16_failure_applies_prefix {T} `{Scalar T} (t : nat) (h : gmap nat (node T)) nx c ps i a n p :
  chain_of h (c_nodes c) c -> plain h (c_movable c) -> length ps = c_dof c ->
  c_movable c !! i = Some a -> ps !! i = Some p -> h !! a = Some n -> ~ admissible (n_joint n) p ->
  (forall j b q, j < i -> c_movable c !! j = Some b -> ps !! j = Some q -> admissible_at h b q) ->
  exists h' e, run t (set_joint_positions c ps) (quiet h nx) = Done (Err e) (quiet h' nx) /\
    snd (joint_set (n_joint n) p) = Err e /\
    (forall j b q, j < i -> c_movable c !! j = Some b -> ps !! j = Some q -> moved_at h h' b q) /\
    (forall b, (forall j, j < i -> c_movable c !! j <> Some b) -> h' !! b = h !! b).
Proof. exact (set_positions_prefix_lemma t h nx c ps i a n p). Qed.
Print Assumptions C16_failure_applies_prefix.

Theorem C17_clamped {T} `{Scalar T} (t : nat) (h : gmap nat (node T)) nx c ps :
  NoDup (c_movable c) -> all_live h (c_movable c) ->
  exists h', run t (set_joint_positions_clamped c ps) (quiet h nx) = Done tt (quiet h' nx) /\
    (forall i a p, c_movable c !! i = Some a -> ps !! i = Some p -> clamped_at h h' a p) /\
    (forall b, b ∉ take (length ps) (c_movable c) -> h' !! b = h !! b).
Proof. exact (set_clamped_all_lemma t h nx c ps). Qed.
Print Assumptions C17_clamped.

Theorem C17_unchecked {T} `{Scalar T} (t : nat) (h : gmap nat (node T)) nx c ps :
  NoDup (c_movable c) -> all_live h (c_movable c) ->
  exists h', run t (set_joint_positions_unchecked c ps) (quiet h nx) = Done tt (quiet h' nx) /\
    (forall i a p, c_movable c !! i = Some a -> ps !! i = Some p -> moved_at h h' a p) /\
    (forall b, b ∉ take (length ps) (c_movable c) -> h' !! b = h !! b).
Proof. exact (set_unchecked_all_lemma t h nx c ps). Qed.
Print Assumptions C17_unchecked.

(** C26: on the chain of an entire tree, acceptance iff no node branches. *)
Theorem C26_tree {T} `{Scalar T} (t : nat) ovf (h : gmap nat (node T)) nx tr c :
  tree_in h tr -> chain_of h (preorder_last tr) c ->
  exists o, run t (try_new ovf c) (quiet h nx) = Done o (quiet h nx) /\
    (o = Some c \/ o = None) /\
    (o = Some c <-> forall a n, a ∈ preorder_last tr -> h !! a = Some n -> length (n_children n) <= 1) /\
    (o = Some c -> single_path h (c_nodes c)).
Proof. exact (try_new_tree_lemma t ovf h nx tr c). Qed.
Print Assumptions C26_tree.
(** C26: on any non-empty chain, all nodes but the last must have exactly one
    child, inside the chain or not. *)
Theorem C26_any {T} `{Scalar T} (t : nat) ovf (h : gmap nat (node T)) nx c l x :
  all_live h (c_nodes c) -> c_nodes c = l ++ [x] ->
  exists o, run t (try_new ovf c) (quiet h nx) = Done o (quiet h nx) /\
    (o = Some c \/ o = None) /\ (o = Some c <-> forall a, a ∈ l -> child_count h a 1).
Proof. exact (run_try_new t ovf h nx c l x). Qed.
Print Assumptions C26_any.
Theorem C26_empty {T} `{Scalar T} (t : nat) ovf (h : gmap nat (node T)) nx c :
  c_nodes c = [] ->
  run t (try_new ovf c) (quiet h nx) =
  if ovf then Panicked "attempt to subtract with overflow" (quiet h nx) else Done (Some c) (quiet h nx).
Proof. exact (run_try_new_empty t ovf h nx c). Qed.
Print Assumptions C26_empty.

Theorem C27_find {T} `{Scalar T} (t : nat) (h : gmap nat (node T)) nx c name :
  all_live h (c_nodes c) ->
  exists o, run t (chain_find c name) (quiet h nx) = Done o (quiet h nx) /\
    match o with
    | Some a => exists l1 l2, c_nodes c = l1 ++ a :: l2 /\ name_at h a name /\
                  forall b, b ∈ l1 -> ~ name_at h b name
    | None => forall b, b ∈ c_nodes c -> ~ name_at h b name
    end.
Proof. exact (run_find t h nx c name). Qed.
Print Assumptions C27_find.

(** C27: the lookup of the ignored joints' names in the IK solver (ik.rs:307-320)
    finds for each the first movable joint of that name; the error names the
    first unknown one. *)
Theorem C27_solver_lookup {T} `{Scalar T} (t : nat) (h : gmap nat (node T)) nx c names :
  all_live h (c_movable c) ->
  exists r, run t (ignored_indices c names) (quiet h nx) = Done r (quiet h nx) /\
    match r with
    | Ok idx => Forall2 (first_named h (c_movable c)) names idx
    | Err e => exists l1 nm l2, names = l1 ++ nm :: l2 /\ e = InvalidJointNameError nm /\
                 nowhere_named h (c_movable c) nm /\
                 forall nm', nm' ∈ l1 -> exists i, first_named h (c_movable c) nm' i
    end.
Proof. exact (run_ignored_indices t h nx c names). Qed.
Print Assumptions C27_solver_lookup.

(** ** Concrete case: the tree of PropGraph.v, 0 -> {1 -> {3}, 2}; 0 fixed, 1 and
    3 linear with limits [0,10], 2 rotational without limits. *)
Definition ex_chain : prog spec_float chain := ex_tree ;;; from_root 9 0.
Example C13_case :
  (fst <$> final (run 0 ex_chain empty_sh)) = Some (Chain [0; 2; 1; 3] [2; 1; 3] 3) /\
  (fst <$> final (run 0 (from_end 9 3) (after ex_tree))) = Some (Chain [0; 1; 3] [1; 3] 2) /\
  (fst <$> final (run 0 (from_end_to_root 9 3 1) (after ex_tree))) = Some (Chain [1; 3] [1; 3] 2) /\
  (fst <$> final (run 0 (from_end_to_root 9 3 2) (after ex_tree))) = Some (Chain [0; 1; 3] [1; 3] 2).
Proof. vm_compute. repeat split. Qed.

Definition c0 : chain := Chain [0; 2; 1; 3] [2; 1; 3] 3.
Lemma ex_chain_of : chain_of (heap (after ex_tree)) (c_nodes c0) c0.
Proof. unfold chain_of. vm_compute. repeat split. Qed.
Lemma plain_check {T} (h : gmap nat (node T)) l : NoDup l ->
  forallb (fun a => match h !! a with
                    | Some n => match n_mimic_parent n, n_mimic_children n with None, [] => true | _, _ => false end
                    | None => false end) l = true -> plain h l.
Proof.
  intros Hnd H. split; [assumption|]. rewrite forallb_forall in H. intros a Ha.
  apply elem_of_list_In, H in Ha. destruct (h !! a) as [n|]; [|discriminate]. exists n. split; [reflexivity|].
  unfold no_mimic. destruct (n_mimic_parent n), (n_mimic_children n); try discriminate. auto.
Qed.
Lemma ex_plain : plain (heap (after ex_tree)) (c_movable c0).
Proof. apply plain_check; [cbn; repeat constructor; set_solver|vm_compute; reflexivity]. Qed.
Lemma admissible_check {T} `{Scalar T} (h : gmap nat (node T)) a p :
  (match h !! a with Some n => match snd (joint_set (n_joint n) p) with Ok _ => true | _ => false end
   | None => false end) = true -> admissible_at h a p.
Proof.
  destruct (h !! a) as [n|] eqn:E; [|discriminate]. intros Ho. exists n. split; [assumption|].
  apply JointProofs.joint_set_ok_iff. destruct (snd _) as [[]|]; congruence.
Qed.
Example C15_case : let h := heap (after ex_tree) in let ps := [f 20; f 3; f 4] in
  length ps = c_dof c0 /\
  (forall i a p, c_movable c0 !! i = Some a -> ps !! i = Some p -> admissible_at h a p) /\
  (fst <$> final (run 0 (set_joint_positions c0 ps ;;; joint_positions c0) (after ex_tree))) = Some ps.
Proof.
  split; [reflexivity|]. split; [|vm_compute; reflexivity].
  intros [|[|[|i]]] a p Ha Hp; cbn in Ha, Hp; try discriminate; injection Ha as <-; injection Hp as <-;
    apply admissible_check; vm_compute; reflexivity.
Qed.
(** node 1 rejects 11, so node 2 has moved and node 3 has not *)
Example C16_case : let r := run 0 (set_joint_positions c0 [f 20; f 11; f 4]) (after ex_tree) in
  (fst <$> final r) = Some (Err (OutOfLimitError "j1" (f 11) (f 10) (f 0))) /\
  (match r with Done _ s => [pos_of s 2; pos_of s 1; pos_of s 3] | _ => [] end)
  = [Some (f 20); Some (f 0); Some (f 0)].
Proof. vm_compute. split; reflexivity. Qed.
Example C17_case : let s := do_ (set_joint_positions_clamped c0 [f 20; f 11]) (after ex_tree) in
  let s' := do_ (set_joint_positions_unchecked c0 [f 20; f 11; f 5; f 6; f 7]) (after ex_tree) in
  [pos_of s 2; pos_of s 1; pos_of s 3] = [Some (f 20); Some (f 10); Some (f 0)] /\
  [pos_of s' 2; pos_of s' 1; pos_of s' 3] = [Some (f 20); Some (f 11); Some (f 5)].
Proof. vm_compute. split; reflexivity. Qed.
(** C26: the branching tree is rejected, and so is the serial chain to node 3 cut
    from it, although its nodes do form a path. *)
Example C26_case :
  (fst <$> final (run 0 (try_new true c0) (after ex_tree))) = Some None /\
  (fst <$> final (run 0 (c <- from_end 9 3 ;; try_new true c) (after ex_tree))) = Some None /\
  (fst <$> final (run 0 (c <- from_root 9 1 ;; try_new true c) (after ex_tree))) = Some (Some (Chain [1; 3] [1; 3] 2)).
Proof. vm_compute. repeat split. Qed.
Example C27_case :
  (fst <$> final (run 0 (chain_find c0 "j3") (after ex_tree))) = Some (Some 3) /\
  (fst <$> final (run 0 (chain_find c0 "nobody") (after ex_tree))) = Some None.
Proof. vm_compute. split; reflexivity. Qed.
Example C27_solver_case :
  (fst <$> final (run 0 (ignored_indices c0 ["j3"; "j2"]%string) (after ex_tree))) = Some (Ok [2; 0]) /\
  (fst <$> final (run 0 (ignored_indices c0 ["j3"; "root"]%string) (after ex_tree))) = Some (Err (InvalidJointNameError "root")).
Proof. vm_compute. split; reflexivity. Qed.
