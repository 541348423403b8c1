(** * C18, C19, C20, C28: forward kinematics, end transform, caches, links *)
From Coq Require Import String ZArith Floats.SpecFloat.
From stdpp Require Import gmap.
From Verif Require Import Scalar ScalarF Geometry Joint Link Prog NodeM ChainM SpecJoint SpecNode
  SpecGraph GraphProofs LinkProofs SpecChain ChainProofs SpecFK RunLemmas JointProofs FKProofs Ex PropGraph PropChain.

(** C18, for every scalar arithmetic and every initial content of the caches. *)
Theorem C18_update_transforms {T} `{Scalar T} (t : nat) (h : gmap nat (node T)) nx c :
  all_live h (c_nodes c) -> parents_first h (c_nodes c) ->
  exists ws h', run t (update_transforms c) (quiet h nx) = Done ws (quiet h' nx) /\
    Forall2 (world h) (c_nodes c) ws /\
    Forall2 (cached h h') (c_nodes c) ws /\
    (forall b, b ∉ c_nodes c -> h' !! b = h !! b) /\
    run t (update_transforms c) (quiet h' nx) = Done ws (quiet h' nx).
Proof. exact (update_transforms_lemma t h nx c). Qed.
Print Assumptions C18_update_transforms.
(** C18: which chains qualify. *)
Theorem C18_from_end_qualifies {T} `{Scalar T} (h : gmap nat (node T)) e l :
  path_up h e l -> parents_first h (rev l).
Proof. exact (from_end_parents_first h e l). Qed.
Print Assumptions C18_from_end_qualifies.
Theorem C18_from_root_qualifies {T} `{Scalar T} (h : gmap nat (node T)) tr :
  forest h -> tree_in h tr -> no_parent h (troot tr) -> parents_first h (preorder_last tr).
Proof. exact (from_root_parents_first h tr). Qed.
Print Assumptions C18_from_root_qualifies.
(** the specified value is unique *)
Theorem C18_world_unique {T} `{Scalar T} (h : gmap nat (node T)) a w1 w2 :
  world h a w1 -> world h a w2 -> w1 = w2.
Proof. exact (world_fun h a w1 w2). Qed.
Print Assumptions C18_world_unique.

(** C19: a serial chain from a parentless node. *)
Theorem C19_end_transform {T} `{Scalar T} (t : nat) (h : gmap nat (node T)) nx c e l :
  path_up h e l -> c_nodes c = rev l ->
  exists w ws h', run t (end_transform c) (quiet h nx) = Done w (quiet h nx) /\
    run t (update_transforms c) (quiet h nx) = Done ws (quiet h' nx) /\
    last ws = Some w /\ world h e w.
Proof. exact (end_transform_lemma t h nx c e l). Qed.
Print Assumptions C19_end_transform.
(** C19: a serial chain [x :: l] whose first node has a parent [q] outside it, [ts]
    being the local transforms along it. *)
Theorem C19_cut_chain {T} `{Scalar T} (t : nat) (h : gmap nat (node T)) nx c x l q w ts :
  c_nodes c = x :: l -> serial h (x :: l) -> all_live h (x :: l) -> NoDup (x :: l) ->
  live_parent h x q -> q ∉ x :: l -> wt_of h q (Some w) -> Forall2 (local_at h) (x :: l) ts ->
  exists ws h', run t (end_transform c) (quiet h nx) = Done (product iso1 ts) (quiet h nx) /\
    run t (update_transforms c) (quiet h nx) = Done ws (quiet h' nx) /\
    last ws = Some (product w ts).
Proof. exact (cut_chain_lemma t h nx c x l q w ts). Qed.
Print Assumptions C19_cut_chain.
Theorem C19_cut_chain_panics {T} `{Scalar T} (t : nat) (h : gmap nat (node T)) nx c x l q :
  c_nodes c = x :: l -> live_parent h x q -> wt_of h q None ->
  run t (update_transforms c) (quiet h nx) = Panicked "cache must exist" (quiet h nx).
Proof. exact (cut_chain_panics_lemma t h nx c x l q). Qed.
Print Assumptions C19_cut_chain_panics.

(** C20: the setters clear the cache of the joint itself and touch no other node. *)
Theorem C20_set_position_clears_own {T} `{Scalar T} (t : nat) (h : gmap nat (node T)) nx a n p :
  h !! a = Some n -> no_mimic n -> admissible (n_joint n) p ->
  exists h', run t (node_set_joint_position a p) (quiet h nx) = Done (Ok tt) (quiet h' nx) /\
    wt_of h' a None /\ forall b, b <> a -> h' !! b = h !! b.
Proof. exact (set_position_clears_lemma t h nx a n p). Qed.
Print Assumptions C20_set_position_clears_own.
Theorem C20_set_unchecked_clears_own {T} `{Scalar T} (t : nat) (h : gmap nat (node T)) nx a n p :
  h !! a = Some n ->
  exists h', run t (node_set_joint_position_unchecked a p) (quiet h nx) = Done tt (quiet h' nx) /\
    wt_of h' a None /\ forall b, b <> a -> h' !! b = h !! b.
Proof. exact (set_unchecked_clears_lemma t h nx a n p). Qed.
Print Assumptions C20_set_unchecked_clears_own.
(** the clamped setter does so for a joint that can move and changes nothing else *)
Theorem C20_set_clamped_clears_own {T} `{Scalar T} (t : nat) (h : gmap nat (node T)) nx a n p :
  h !! a = Some n ->
  exists h', run t (node_set_joint_position_clamped a p) (quiet h nx) = Done tt (quiet h' nx) /\
    (movable (n_joint n) -> wt_of h' a None) /\ (~ movable (n_joint n) -> h' !! a = h !! a) /\ forall b, b <> a -> h' !! b = h !! b.
Proof.
  intros Hn. eexists. split; [unfold node_set_joint_position_clamped; apply run_modify; [exact Hn|apply lookup_empty]|].
  unfold joint_set_clamped. destruct (is_movable (n_joint n)) eqn:E; cbn [negb].
  - split; [intros _; eexists; split; [apply lookup_insert|reflexivity]|]. split; [intros Hm; destruct Hm; apply movable_iff, E|].
    intros b Hb. apply lookup_insert_ne. auto.
  - split; [intros Hm; apply movable_iff in Hm; congruence|]. split; [intros _; rewrite lookup_insert, Hn; destruct n; reflexivity|].
    intros b Hb. apply lookup_insert_ne. auto.
Qed.
Print Assumptions C20_set_clamped_clears_own.
Theorem C20_set_origin_clears_own {T} `{Scalar T} (t : nat) (h : gmap nat (node T)) nx a n o :
  h !! a = Some n ->
  exists h', run t (node_set_origin a o) (quiet h nx) = Done tt (quiet h' nx) /\
    wt_of h' a None /\ forall b, b <> a -> h' !! b = h !! b.
Proof. exact (set_origin_clears_lemma t h nx a n o). Qed.
Print Assumptions C20_set_origin_clears_own.
(** C20: after the update every node of the chain is fresh (and no fresh node
    outside it stops being so) ... *)
Theorem C20_update_makes_fresh {T} `{Scalar T} (t : nat) (h : gmap nat (node T)) nx c :
  all_live h (c_nodes c) -> parents_first h (c_nodes c) ->
  exists ws h', run t (update_transforms c) (quiet h nx) = Done ws (quiet h' nx) /\
    (forall a, a ∈ c_nodes c -> fresh h' a) /\ (forall a, fresh h a -> fresh h' a).
Proof. exact (update_fresh_short t h nx c). Qed.
Print Assumptions C20_update_makes_fresh.
(** ... and stays so along any history of calls whose targets are not ancestors. *)
Theorem C20_fresh_is_stable {T} `{Scalar T} (a : nat) (s s' : sh T) :
  rtc (calm_step a) s s' -> fresh (heap s) a -> fresh (heap s') a.
Proof. exact (calm_history_lemma a s s'). Qed.
Print Assumptions C20_fresh_is_stable.

(** C28: each link is placed in the frame of the parent node. *)
Theorem C28_update_link_transforms {T} `{Scalar T} (t : nat) (h : gmap nat (node T)) nx c :
  all_live h (c_nodes c) -> parents_first h (c_nodes c) ->
  exists h', run t (update_link_transforms c) (quiet h nx) = Done tt (quiet h' nx) /\
    (forall a, a ∈ c_nodes c -> exists n n' w pw, h !! a = Some n /\ h' !! a = Some n' /\
       world h a w /\ parent_frame h a pw /\ node_placed n w pw n') /\
    (forall b, b ∉ c_nodes c -> h' !! b = h !! b).
Proof. exact (update_links_lemma t h nx c). Qed.
Print Assumptions C28_update_link_transforms.

(** C28: that frame is not the node's own frame (the one center_of_mass uses): the
    latter has the joint's local transform on top. *)
Theorem C28_own_frame {T} `{Scalar T} (h : gmap nat (node T)) a n pw :
  h !! a = Some n -> parent_frame h a pw ->
  world h a (iso_mul pw (local_transform (n_joint n))).
Proof. exact (parent_frame_world h a n pw). Qed.
Print Assumptions C28_own_frame.

(** ** Concrete case: 0 -> {1 -> {3}, 2} with displaced origins and links *)
Definition ex_link (name : string) (o : iso spec_float) : link spec_float :=
  link_add_visual (link_with_inertial (link_with_name link_default name) (inertial_new o (f 2) mat3_id))
    (visual_new "v" (trans 0 1 0) (GSphere (f 1)) (Material "" (Color (f 0) (f 0) (f 0) (f 1)) (Texture ""))).
Definition ex_fk : prog spec_float unit :=
  a <- node_new (fix_at "root" (trans 1 0 0)) ;; b <- node_new (lin_at "j1" (trans 0 2 0)) ;;
  c <- node_new (rot "j2") ;; d <- node_new (lin_at "j3" (trans 5 0 0)) ;;
  node_set_parent b a ;;; node_set_parent c a ;;; node_set_parent d b ;;;
  node_set_link b (Some (ex_link "l1" (trans 7 0 0))).
Definition tr_of (i : iso spec_float) := tr i.
Definition wt_tr (s : sh spec_float) (a : nat) : option (vec3 spec_float) :=
  n ← heap s !! a; tr <$> j_wt_cache (n_joint n).
Lemma parents_first_check {T} (h : gmap nat (node T)) l :
  (fix go seen l := match l with [] => true | a :: l =>
     match h !! a with
     | Some n => match n_parent n with
                 | Some p => match h !! p with Some _ => existsb (Nat.eqb p) seen | None => true end
                 | None => true end
     | None => true end && go (seen ++ [a]) l end) [] l = true -> parents_first h l.
Proof.
  set (go := fix go seen l := match l with [] => true | a :: l => _ && go (seen ++ [a]) l end).
  assert (H : forall l seen, go seen l = true -> forall l1 a l2 p, l = l1 ++ a :: l2 -> live_parent h a p -> p ∈ seen ++ l1).
  { clear l. induction l as [|x l IH]; intros seen Hg l1 a l2 p E Hp; [destruct l1; discriminate|].
    cbn in Hg. apply andb_prop in Hg as [Hx Hg]. destruct l1 as [|y l1].
    - injection E as <- <-. destruct Hp as [(n & Hn & Hnp) [np Hnp']]. rewrite Hn, Hnp, Hnp' in Hx.
      apply existsb_exists in Hx as (z & Hz & Ez). apply Nat.eqb_eq in Ez as <-.
      rewrite app_nil_r. apply elem_of_list_In. assumption.
    - injection E as <- E. specialize (IH _ Hg l1 a l2 p E Hp). rewrite <- app_assoc in IH. exact IH. }
  intros Hg l1 a l2 p E Hp. apply (H l [] Hg l1 a l2 p E Hp).
Qed.
Lemma wt_some_check {T} (h : gmap nat (node T)) a (g : iso T -> nat) :
  (n ← h !! a; g <$> j_wt_cache (n_joint n)) = Some (0 : nat) -> exists w, wt_of h a (Some w).
Proof.
  destruct (h !! a) as [n|] eqn:E; [|discriminate]. cbn.
  destruct (j_wt_cache (n_joint n)) as [w|] eqn:Ew; [|discriminate]. intros _. exists w, n. auto.
Qed.
Lemma wt_none_check {T} (h : gmap nat (node T)) a :
  ((fun n => j_wt_cache (n_joint n)) <$> h !! a) = Some None -> wt_of h a None.
Proof. destruct (h !! a) as [n|] eqn:E; [|discriminate]. cbn. intros H. exists n. split; congruence. Qed.
Lemma not_fresh_lemma (s : sh spec_float) c a (g : iso spec_float -> vec3 spec_float) x ys i :
  all_live (heap s) (c_nodes c) -> parents_first (heap s) (c_nodes c) ->
  (n ← heap s !! a; g <$> j_wt_cache (n_joint n)) = Some x ->
  match run 0 (update_transforms c) (quiet (heap s) (nxt s)) with Done ws _ => map g ws | _ => [] end = ys ->
  c_nodes c !! i = Some a -> is_Some (ys !! i) -> ys !! i <> Some x -> ~ fresh (heap s) a.
Proof.
  intros Hl Hp Hx Hys Hi Hyi Hne (w & (n & Hn & Hw) & Hwd).
  rewrite Hn in Hx. cbn in Hx. rewrite <- Hw in Hx. cbn in Hx. injection Hx as Hx.
  destruct (update_transforms_lemma 0 (heap s) (nxt s) c Hl Hp) as (ws & h' & Hr & Hws & _).
  rewrite Hr in Hys. apply Forall2_same_length_lookup in Hws as [Hlen Hws].
  destruct (lookup_lt_is_Some_2 ws i) as [w' Hw']; [rewrite <- Hlen; eapply lookup_lt_Some; eauto|].
  assert (w' = w) as -> by (eapply world_fun; eauto).
  apply Hne. rewrite <- Hys. assert (map g ws !! i = g <$> ws !! i) as -> by apply list_lookup_fmap.
  rewrite Hw'. cbn. congruence.
Qed.
Definition c1 : chain := Chain [0; 2; 1; 3] [2; 1; 3] 3.
Lemma all_live_check {T} (h : gmap nat (node T)) l :
  forallb (fun a => match h !! a with Some _ => true | None => false end) l = true -> all_live h l.
Proof.
  rewrite forallb_forall. intros H a Ha. apply elem_of_list_In, H in Ha. destruct (h !! a); [eauto|discriminate].
Qed.
Example C18_case_hypotheses : let h := heap (after ex_fk) in
  all_live h (c_nodes c1) /\ parents_first h (c_nodes c1) /\
  (fst <$> final (run 0 (from_root 9 0) (after ex_fk))) = Some c1.
Proof.
  cbn zeta. split; [apply all_live_check; vm_compute; reflexivity|].
  split; [apply parents_first_check; vm_compute; reflexivity|vm_compute; reflexivity].
Qed.
(** positions 1.0 on j1 and j3: the end (node 3) is at (6,2,2) *)
Example C18_case : let p := set_joint_positions c1 [f 0; f 1; f 1] ;;; update_transforms c1 in
  ((fun r => map tr_of (fst r)) <$> final (run 0 p (after ex_fk))) =
  Some [V3 (f 1) (f 0) (f 0); V3 (f 1) (f 0) (f 0); V3 (f 1) (f 2) (f 1); V3 (f 6) (f 2) (f 2)].
Proof. vm_compute. reflexivity. Qed.

(** C19: cutting at node 1 after the root's cache was filled; without it, panic *)
Definition c_cut : chain := Chain [1; 3] [1; 3] 2.
Example C19_case :
  ((fun r => tr (fst r)) <$> final (run 0 (end_transform c_cut) (after ex_fk))) = Some (V3 (f 5) (f 2) (f 0)) /\
  ((fun r => map tr (fst r)) <$> final (run 0 (update_transforms c1 ;;; update_transforms c_cut) (after ex_fk)))
    = Some [V3 (f 1) (f 2) (f 0); V3 (f 6) (f 2) (f 0)] /\
  (match run 0 (update_transforms c_cut) (after ex_fk) with Panicked m _ => m | _ => ""%string end) = "cache must exist"%string.
Proof. vm_compute. repeat split. Qed.
Example C19_case_hypotheses : let s := do_ (update_transforms c1) (after ex_fk) in
  live_parent (heap s) 1 0 /\ serial (heap s) [1; 3] /\ (exists w, wt_of (heap s) 0 (Some w)) /\
  wt_of (heap (after ex_fk)) 0 None.
Proof.
  cbn zeta. split; [apply live_parent_check; vm_compute; reflexivity|]. split; [|split].
  - intros [|[|i]] a b Ha Hb; cbn in Ha, Hb; try discriminate. injection Ha as <-. injection Hb as <-.
    apply live_parent_check; vm_compute; reflexivity.
  - apply (wt_some_check _ _ (fun _ => 0)). vm_compute. reflexivity.
  - apply wt_none_check. vm_compute. reflexivity.
Qed.

(** C20: moving node 1 leaves the cached transform of its child 3 at the old
    place (6,2,0), while recomputing gives (6,2,3). *)
Example C20_case_stale :
  let s := do_ (update_transforms c1) (after ex_fk) in
  let s' := do_ (node_set_joint_position 1 (f 3)) s in
  (wt_tr s' 1, wt_tr s' 3) = (None, Some (V3 (f 6) (f 2) (f 0))) /\
  wt_tr (do_ (update_transforms c1) s') 3 = Some (V3 (f 6) (f 2) (f 3)).
Proof. vm_compute. split; reflexivity. Qed.

(** C20: so the cached value of a descendant is wrong after a setter. *)
Definition ex_stale : sh spec_float :=
  do_ (node_set_joint_position 1 (f 3)) (do_ (update_transforms c1) (after ex_fk)).
Theorem C20_descendants_fresh_refuted :
  live_parent (heap ex_stale) 3 1 /\ (exists w, wt_of (heap ex_stale) 3 (Some w)) /\ ~ fresh (heap ex_stale) 3.
Proof.
  split; [apply live_parent_check; vm_compute; reflexivity|]. split.
  - apply (wt_some_check _ _ (fun _ => 0)). vm_compute. reflexivity.
  - apply (not_fresh_lemma ex_stale c1 3 tr (V3 (f 6) (f 2) (f 0)) [V3 (f 1) (f 0) (f 0); V3 (f 1) (f 0) (f 0); V3 (f 1) (f 2) (f 3); V3 (f 6) (f 2) (f 3)] 3).
    + apply all_live_check. vm_compute. reflexivity.
    + apply parents_first_check. vm_compute. reflexivity.
    + vm_compute. reflexivity.
    + vm_compute. reflexivity.
    + vm_compute. reflexivity.
    + eexists. reflexivity.
    + vm_compute. discriminate.
Qed.
Print Assumptions C20_descendants_fresh_refuted.

(** C28: the link on node 1, whose inertial origin is at (7,0,0), is placed at
    (8,0,0) = frame of node 0; node 1's own frame, which center_of_mass uses, is
    displaced by (0,2,0) from that. *)
Example C28_case : let s := do_ (update_link_transforms c1) (after ex_fk) in
  (n ← heap s !! 1; l ← n_link n; tr <$> in_wt (l_inertial l)) = Some (V3 (f 8) (f 0) (f 0)) /\
  (n ← heap s !! 1; l ← n_link n; Some (map (fun v => tr <$> vi_wt v) (l_visuals l))) = Some [Some (V3 (f 1) (f 1) (f 0))] /\
  wt_tr s 1 = Some (V3 (f 1) (f 2) (f 0)).
Proof. vm_compute. repeat split. Qed.
