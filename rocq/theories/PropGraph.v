(** * C10-C12: parent/child links and the two iterators *)
From Coq Require Import String ZArith Floats.SpecFloat.
From stdpp Require Import gmap.
From Verif Require Import Scalar ScalarF Geometry Joint Link Prog NodeM
  RunLemmas SpecGraph GraphProofs LinkProofs Ex.

(** C10: every state reached by disciplined use is a forest. *)
Theorem C10_forest_invariant {T} `{Scalar T} (s : sh T) :
  linked s -> exists h nx, s = quiet h nx /\ forest h.
Proof. exact (linked_forest_lemma s). Qed.
Print Assumptions C10_forest_invariant.

(** C10: attaching and detaching again restores the whole heap. *)
Theorem C10_attach_detach {T} `{Scalar T} (t : nat) (h : gmap nat (node T)) nx c nc p :
  h !! c = Some nc -> is_Some (h !! p) -> c <> p -> n_parent nc = None ->
  ~ lists_child h p c ->
  run t (node_set_parent c p ;;; node_remove_parent c p) (quiet h nx) = Done tt (quiet h nx).
Proof. exact (attach_detach_lemma t h nx c nc p). Qed.
Print Assumptions C10_attach_detach.

(** C10: [connect!] on distinct live nodes makes each the parent of the next and changes
    nothing else. *)
Theorem C10_connect {T} `{Scalar T} (t : nat) nx rest : forall x (h : gmap nat (node T)),
  let l := x :: rest in NoDup l -> (forall a, a ∈ l -> is_Some (h !! a)) ->
  exists h', run t (connect x rest) (quiet h nx) = Done tt (quiet h' nx) /\ (forall a, a ∉ l -> h' !! a = h !! a) /\
    forall i a n, l !! i = Some a -> h !! a = Some n ->
      h' !! a = Some (Node (match i with O => n_parent n | S k => l !! k end)
        (n_children n ++ match l !! S i with Some c => [c] | None => [] end)
        (n_joint n) (n_mimic_parent n) (n_mimic_children n) (n_mimic n) (n_link n)).
Proof.
  induction rest as [|y rest IH]; intros x h l Hnd Hl.
  - exists h. split; [reflexivity|]. split; [auto|]. intros [|i] a n Hi Hn; [|discriminate]. injection Hi as <-. rewrite Hn. cbn. rewrite app_nil_r. destruct n; reflexivity.
  - apply NoDup_cons in Hnd as [Hx Hnd]. destruct (Hl x) as [nx0 Hx0]; [left|]. destruct (Hl y) as [ny Hy]; [right; left|].
    assert (Hxy : x <> y) by (intros ->; apply Hx; left).
    set (h1 := <[x := set_n_children nx0 (n_children nx0 ++ [y])]> (<[y := set_n_parent ny (Some x)]> h)).
    assert (E1 : run t (node_set_parent y x) (quiet h nx) = Done tt (quiet h1 nx)).
    { unfold node_set_parent, quiet. rewrite run_bind, (run_modify t y _ h nx ∅ ny Hy (lookup_empty y)). cbn [obind].
      assert (Hx0' : <[y := set_n_parent ny (Some x)]> h !! x = Some nx0) by (rewrite lookup_insert_ne by congruence; exact Hx0).
      rewrite (run_modify t x _ _ nx ∅ nx0 Hx0' (lookup_empty x)). reflexivity. }
    destruct (IH y h1 Hnd) as (h' & E & Ho & Hi).
    { intros a Ha. unfold h1. rewrite !lookup_insert_is_Some. destruct (decide (x = a)) as [|Hxa]; [left; assumption|right; split; [assumption|]].
      destruct (decide (y = a)); [left; assumption|right; split; [assumption|]]. apply Hl. right. exact Ha. }
    exists h'. split; [cbn [connect]; rewrite run_bind, E1; cbn [obind]; exact E|]. split.
    + intros a Ha. rewrite Ho by (intros Ha'; apply Ha; right; exact Ha'). unfold h1. rewrite !lookup_insert_ne; [reflexivity| |]; intros ->; apply Ha; [right; left|left].
    + intros i a n Hia Hn. destruct i as [|[|i]]; cbn in Hia.
      * injection Hia as <-. rewrite Ho by exact Hx. unfold h1. rewrite lookup_insert. assert (n = nx0) as -> by congruence. destruct nx0. reflexivity.
      * injection Hia as <-. rewrite (Hi 0 y (set_n_parent ny (Some x)) eq_refl); [|unfold h1; rewrite lookup_insert_ne by exact Hxy; apply lookup_insert].
        assert (n = ny) as -> by congruence. destruct ny. reflexivity.
      * assert (Hne : a <> x /\ a <> y).
        { apply NoDup_cons in Hnd as [Hy' _]. apply elem_of_list_lookup_2 in Hia. split; intros ->; [apply Hx; right; exact Hia|apply Hy'; exact Hia]. }
        rewrite (Hi (S i) a n Hia); [reflexivity|]. unfold h1. rewrite !lookup_insert_ne by (destruct Hne; congruence). exact Hn.
Qed.
Print Assumptions C10_connect.

(** C10: re-parenting without detaching leaves the node listed twice, so the
    invariant fails without the discipline. *)
Theorem C10_reparent_refuted {T} `{Scalar T} (t : nat) (h : gmap nat (node T)) nx c q p :
  has_parent h c q -> lists_child h q c -> is_Some (h !! p) -> c <> p -> c <> q -> q <> p ->
  exists h', run t (node_set_parent c p) (quiet h nx) = Done tt (quiet h' nx) /\
    has_parent h' c p /\ ~ has_parent h' c q /\ lists_child h' p c /\ lists_child h' q c /\
    ~ forest h'.
Proof. exact (attach_twice_lemma t h nx c q p). Qed.
Print Assumptions C10_reparent_refuted.

(** C11: the iterator yields the path to the root, each node once. *)
Theorem C11_ancestors {T} `{Scalar T} (t : nat) (h : gmap nat (node T)) nx a l :
  path_up h a l ->
  NoDup l /\ (forall b, b ∈ l <-> rtc (live_parent h) a b) /\
  forall fuel, length l < fuel ->
    run t (iter_ancestors fuel a) (quiet h nx) = Done l (quiet h nx).
Proof. exact (run_ancestors_lemma t h nx a l). Qed.
Print Assumptions C11_ancestors.

(** C11: ... and nothing else. *)
Theorem C11_ancestors_only {T} `{Scalar T} (t : nat) (h : gmap nat (node T)) nx fuel a l s :
  run t (iter_ancestors fuel a) (quiet h nx) = Done l s -> path_up h a l /\ s = quiet h nx.
Proof. exact (run_ancestors_inv_lemma t h nx fuel a l s). Qed.
Print Assumptions C11_ancestors_only.

(** C11: without a cycle the path exists, i.e. the iteration ends. *)
Theorem C11_acyclic_ends {T} `{Scalar T} (h : gmap nat (node T)) a :
  (forall x, ~ tc (live_parent h) x x) -> is_Some (h !! a) -> exists l, path_up h a l.
Proof. exact (path_up_exists h a). Qed.
Print Assumptions C11_acyclic_ends.

(** C11: on a cycle it never ends, whatever the number of steps granted. *)
Theorem C11_cycle_diverges {T} `{Scalar T} (t : nat) (h : gmap nat (node T)) nx fuel a b :
  rtc (live_parent h) a b -> tc (live_parent h) b b ->
  run t (iter_ancestors fuel a) (quiet h nx) = OutOfFuel (quiet h nx).
Proof. exact (run_ancestors_cycle t h nx fuel a b). Qed.
Print Assumptions C11_cycle_diverges.

(** C12: on a tree the iterator yields the pre-order with the last child first. *)
Theorem C12_descendants {T} `{Scalar T} (t : nat) (h : gmap nat (node T)) nx tr fuel :
  tree_in h tr -> tsize tr < fuel ->
  run t (iter_descendants fuel (troot tr)) (quiet h nx) = Done (preorder_last tr) (quiet h nx).
Proof. exact (run_descendants_lemma t h nx tr fuel). Qed.
Print Assumptions C12_descendants.

Theorem C12_descendants_only {T} `{Scalar T} (t : nat) (h : gmap nat (node T)) nx fuel a l s :
  run t (iter_descendants fuel a) (quiet h nx) = Done l s ->
  s = quiet h nx /\ exists tr, troot tr = a /\ tree_in h tr /\ l = preorder_last tr.
Proof. exact (run_descendants_inv_lemma t h nx fuel a l s). Qed.
Print Assumptions C12_descendants_only.

(** C12: in a forest every node has such a tree; it lists exactly the reachable
    nodes, each once, each after its parent. *)
Theorem C12_forest_tree {T} `{Scalar T} (h : gmap nat (node T)) a :
  forest h -> is_Some (h !! a) ->
  exists tr, troot tr = a /\ tree_in h tr /\ NoDup (preorder_last tr) /\
    (forall b, b ∈ preorder_last tr <-> rtc (lists_child h) a b) /\
    (forall l1 b l2, preorder_last tr = l1 ++ b :: l2 -> b <> a ->
       exists p, p ∈ l1 /\ lists_child h p b).
Proof. exact (forest_tree_lemma h a). Qed.
Print Assumptions C12_forest_tree.

Theorem C12_cycle_diverges {T} `{Scalar T} (t : nat) (h : gmap nat (node T)) nx fuel a b :
  children_live h -> is_Some (h !! a) ->
  rtc (lists_child h) a b -> tc (lists_child h) b b ->
  run t (iter_descendants fuel a) (quiet h nx) = OutOfFuel (quiet h nx).
Proof. exact (run_descendants_cycle_lemma t h nx fuel a b). Qed.
Print Assumptions C12_cycle_diverges.

(** ** Concrete case: 0 has children 1, 2; 1 has child 3 *)
Definition ex_tree : prog spec_float unit :=
  a <- node_new (fix_ "root") ;; b <- node_new (lin "j1" 0 10) ;;
  c <- node_new (rot "j2") ;; d <- node_new (lin "j3" 0 10) ;;
  node_set_parent b a ;;; node_set_parent c a ;;; node_set_parent d b.

Definition do_ {A} (p : prog spec_float A) (s : sh spec_float) : sh spec_float :=
  match run 0 p s with Done _ s' => s' | _ => s end.
Example C10_case : let s := do_ ex_tree empty_sh in linked s /\
  map (fun a => (n_parent <$> heap s !! a, n_children <$> heap s !! a)) [0; 1; 2; 3] =
  [(Some None, Some [1; 2]); (Some (Some 0), Some [3]); (Some (Some 0), Some []); (Some (Some 1), Some [])].
Proof.
  split; [|vm_compute; reflexivity].
  set (s1 := do_ (node_new (fix_ "root")) empty_sh).
  set (s2 := do_ (node_new (lin "j1" 0 10)) s1).
  set (s3 := do_ (node_new (rot "j2")) s2).
  set (s4 := do_ (node_new (lin "j3" 0 10)) s3).
  set (s5 := do_ (node_set_parent 1 0) s4).
  set (s6 := do_ (node_set_parent 2 0) s5).
  set (s7 := do_ (node_set_parent 3 1) s6).
  assert (do_ ex_tree empty_sh = s7) as -> by (vm_compute; reflexivity).
  apply rtc_l with s1; [apply (step_new _ (fix_ "root") 0); vm_compute; reflexivity|].
  apply rtc_l with s2; [apply (step_new _ (lin "j1" 0 10) 1); vm_compute; reflexivity|].
  apply rtc_l with s3; [apply (step_new _ (rot "j2") 2); vm_compute; reflexivity|].
  apply rtc_l with s4; [apply (step_new _ (lin "j3" 0 10) 3); vm_compute; reflexivity|].
  apply rtc_l with s5; [apply (step_attach _ 1 0)|apply rtc_l with s6; [apply (step_attach _ 2 0)|
    apply rtc_l with s7; [apply (step_attach _ 3 1)|reflexivity]]];
    first [apply is_live; vm_compute; reflexivity | apply parentless; vm_compute; reflexivity
          | apply leaf_no_rtc; [vm_compute; reflexivity|discriminate] | vm_compute; reflexivity].
Qed.

Definition ex_tree_shape : tree := TNode 0 [TNode 1 [TNode 3 []]; TNode 2 []].
(** four fresh nodes, connected in a line *)
Definition ex_line : sh _ := after (a <- node_new (fix_ "a") ;; b <- node_new (fix_ "b") ;; c <- node_new (fix_ "c") ;; d <- node_new (fix_ "d") ;; Ret tt).
Example C10_connect_case : NoDup [2; 0; 3] /\ (forall a : nat, a ∈ [2; 0; 3] -> is_Some (heap ex_line !! a)) /\
  map (fun a => (n_parent <$> heap (do_ (connect 2 [0; 3]) ex_line) !! a, n_children <$> heap (do_ (connect 2 [0; 3]) ex_line) !! a)) [0; 1; 2; 3] =
  [(Some (Some 2), Some [3]); (Some None, Some []); (Some None, Some [0]); (Some (Some 0), Some [])].
Proof.
  split; [apply NoDup_ListNoDup; repeat constructor; cbn; intuition discriminate|]. split; [|vm_compute; reflexivity].
  intros a Ha. repeat (apply elem_of_cons in Ha as [->|Ha]; [vm_compute; eauto|]). inversion Ha.
Qed.
Example C12_case_hypothesis : tree_in (heap (after ex_tree)) ex_tree_shape.
Proof. repeat first [apply tree_in_check; [vm_compute; reflexivity|] | constructor]. Qed.
Example C12_case : preorder_last ex_tree_shape = [0; 2; 1; 3] /\
  (fst <$> final (run 0 (iter_descendants 9 0) (after ex_tree))) = Some [0; 2; 1; 3].
Proof. vm_compute. split; reflexivity. Qed.
Example C11_case : path_up (heap (after ex_tree)) 3 [3; 1; 0] /\
  (fst <$> final (run 0 (iter_ancestors 9 3) (after ex_tree))) = Some [3; 1; 0].
Proof.
  split; [|vm_compute; reflexivity].
  apply path_step with 1; [apply live_parent_check; vm_compute; reflexivity|].
  apply path_step with 0; [apply live_parent_check; vm_compute; reflexivity|].
  apply path_root, no_parent_check. vm_compute. reflexivity.
Qed.
(** a cycle of two nodes *)
Definition ex_cycle : prog spec_float unit :=
  a <- node_new (fix_ "a") ;; b <- node_new (fix_ "b") ;;
  node_set_parent b a ;;; node_set_parent a b.
Example C11_C12_cycle_case :
  tc (live_parent (heap (after ex_cycle))) 0 0 /\ tc (lists_child (heap (after ex_cycle))) 0 0.
Proof.
  split; (apply tc_l with 1; [|apply tc_once]).
  1,2: apply live_parent_check; vm_compute; reflexivity.
  all: apply lists_child_check; vm_compute; reflexivity.
Qed.
