(** * C86: a robot behaves the same wherever it lies in memory, and a clone like the original *)
From Coq Require Import String NArith ZArith Lia Floats.SpecFloat.
From stdpp Require Import gmap.
From Verif Require Import Scalar ScalarF Geometry Joint Link Prog NodeM ChainM FuncsM IkM RunLemmas Api SpecGraph SpecChain SpecClone GraphProofs ChainProofs
  CloneProofs CloneProofs2 CloneProofs4 Ex ExApi SpecIso IsoProofs IsoClone PropGraph PropEnd PropClone.

(** C86.  Two robots, in one or in two states, whose nodes correspond by [f]: the same joints,
    links and mimics, and parents, mimic links and (if [kids]) children that correspond.  Clients that make
    the same calls on them, as long as they get the same answers, end alike: the same value, the same
    panic, the same deadlock, in states that correspond again.  Without [kids] the calls do not read child lists. *)
Theorem C86_twins {T} `{Scalar T} {A} kids (D : nat -> Prop) (f : nat -> nat) (t : nat) (cl cl' : client T A) (s s' : sh T) :
  (forall a b, D a -> D b -> f a = f b -> a = b) -> state_twin kids D f s s' -> client_twin kids D f cl cl' ->
  outcome_twin kids D f eq (run t (denote cl) s) (run t (denote cl') s').
Proof. intros Hf Hs Hc. apply (twin_lemma kids D f Hf t cl cl' s s' Hc Hs). Qed.
Print Assumptions C86_twins.

(** C86.  Addresses do not matter: the whole heap at other addresses. *)
Theorem C86_moved {T} `{Scalar T} {A} (f : nat -> nat) (t : nat) (cl cl' : client T A) (h h' : gmap nat (node T)) nx nx' :
  (forall a b, f a = f b -> a = b) -> (forall i, f (nx + i) = nx' + i) -> (forall a, h' !! f a = node_to f <$> h !! a) ->
  client_twin true (fun _ => True) f cl cl' ->
  outcome_twin true (fun _ => True) f eq (run t (denote cl) (quiet h nx)) (run t (denote cl') (quiet h' nx')).
Proof.
  intros Hf Hn Hh Hc. apply (C86_twins true (fun _ => True) f t cl cl'); [auto| |exact Hc]. split.
  - intros a _. cbn. rewrite Hh. destruct (h !! a) as [n|]; cbn; [|exact I]. apply node_to_twin. repeat split; auto.
  - intros a _. reflexivity.
  - intros a _. cbn. set_solver.
  - intros i. split; [exact I|]. cbn. rewrite Hn. reflexivity.
Qed.
Print Assumptions C86_moved.

(** C86.  Cloning: what a client gets from the clone, in the state after cloning, is what it would have got from
    the original before.  When the tree branches this is about the calls that do not read child lists; when it does not,
    about all calls, and the clone is the chain that corresponds to the original one. *)
Theorem C86_clone {T} `{Scalar T} kids (t : nat) (h : gmap nat (node T)) nx tr c fuel :
  heap_ok h nx -> forest h -> tree_in h tr -> (forall n, h !! troot tr = Some n -> n_parent n = None) ->
  mimics_in_order h (preorder_last tr) -> chain_of h (preorder_last tr) c -> tsize tr < fuel -> (kids = true -> unbranched h (preorder_last tr)) ->
  exists c' h' nx' f, run t (chain_clone fuel c) (quiet h nx) = Done c' (quiet h' nx') /\
    (forall a, a ∈ preorder_last tr -> h !! f a = None /\ is_Some (h' !! f a)) /\
    let D a := a ∈ preorder_last tr \/ nx <= a in
    (unbranched h (preorder_last tr) -> chain_twin D f c c') /\
    forall A (cl cl' : client T A), client_twin kids D f cl cl' ->
      outcome_twin kids D f eq (run t (denote cl) (quiet h nx)) (run t (denote cl') (quiet h' nx')).
Proof.
  intros Hok Hf Ht Hr Hm Hc Hfu Hk.
  destruct (clone_twin_lemma kids t h nx tr c fuel Hok Hf Ht Hr Hm Hc Hfu Hk) as (c' & h' & nx' & g & R & _ & Hn & Hi & Hs & Hcc).
  exists c', h', nx', g. split; [exact R|]. split; [exact Hn|]. intros D. split; [exact Hcc|]. intros A cl cl' Hcl. apply (C86_twins kids D g t cl cl'); assumption.
Qed.
Print Assumptions C86_clone.

(** ** a chain 0 -> 1 -> 2 -> 3 where 2 and 3 follow 1 *)
Definition iso_build (first second : nat) : prog spec_float unit :=
  node_new (fix_ "r") ;;; node_new (lin "a" 0 10) ;;; node_new (lin "b" 0 10) ;;; node_new (lin "c" 0 4) ;;;
  node_set_parent 1 0 ;;; node_set_parent 2 1 ;;; node_set_parent 3 2 ;;;
  node_set_mimic_parent first 1 (Mimic (f 1) (f 0)) ;;; node_set_mimic_parent second 1 (Mimic (f 1) (f 0)) ;;; Ret tt.
Definition hi : gmap nat (node spec_float) := heap (after (iso_build 2 3)).
Definition hj : gmap nat (node spec_float) := heap (after (iso_build 3 2)).
Definition iso_tree : tree := TNode 0 [TNode 1 [TNode 2 [TNode 3 []]]].
Definition ci : chain := Chain [0; 1; 2; 3] [1; 2; 3] 3.
(** command the joints and ask where they are *)
Definition command (c : chain) : client spec_float (result spec_float unit * list spec_float) :=
  Call (KSetPositions c [f 5; f 0; f 0]) (fun r => Call (KPositions c) (fun ps => Finish (r, ps))).
Ltac each4 Ha := vm_compute in Ha; repeat (apply elem_of_cons in Ha as [->|Ha]); [..|inversion Ha].
Example C86_case : heap_ok hi 4 /\ forest hi /\ tree_in hi iso_tree /\ (forall n, hi !! troot iso_tree = Some n -> n_parent n = None) /\
  mimics_in_order hi (preorder_last iso_tree) /\ chain_of hi (preorder_last iso_tree) ci /\ tsize iso_tree < 9 /\ unbranched hi (preorder_last iso_tree).
Proof.
  split; [apply heap_okb_sound; vm_compute; reflexivity|]. split; [apply forestb_sound; vm_compute; reflexivity|].
  split. { repeat (econstructor; [vm_compute; reflexivity|reflexivity|]; repeat constructor). }
  split. { intros n Hn. vm_compute in Hn. injection Hn as <-. reflexivity. }
  split.
  { intros a n Ha Hn. each4 Ha; vm_compute in Hn; injection Hn as <-;
      (split; [intros m Hm; first [discriminate Hm|injection Hm as <-; split; [vm_compute; set_solver|eexists; reflexivity]]|split; [first [reflexivity|discriminate]|vm_compute; reflexivity]]). }
  split; [unfold chain_of; vm_compute; repeat split|]. split; [vm_compute; lia|].
  intros a n Ha Hn. each4 Ha; vm_compute in Hn; injection Hn as <-; cbn; lia.
Qed.
(** so the clone answers the command as the original does *)
Example C86_case_client : exists c' h' nx' f, run 0 (chain_clone 9 ci) (quiet hi 4) = Done c' (quiet h' nx') /\
  let D a := a ∈ preorder_last iso_tree \/ 4 <= a in
  client_twin true D f (command ci) (command c') /\
  outcome_twin true D f eq (run 0 (denote (command ci)) (quiet hi 4)) (run 0 (denote (command c')) (quiet h' nx')).
Proof.
  destruct C86_case as (K1 & K2 & K3 & K4 & K5 & K6 & K7 & K8).
  destruct (C86_clone true 0 hi 4 iso_tree ci 9 K1 K2 K3 K4 K5 K6 K7 (fun _ => K8)) as (c' & h' & nx' & g & R & _ & Hc & Ht).
  exists c', h', nx', g. split; [exact R|]. intros D. specialize (Hc K8).
  assert (E : c' = chain_to g ci).
  { destruct c' as [l m d]. destruct Hc as (H1 & H2 & H3). cbn in *. unfold chain_to. cbn. subst d. f_equal.
    - clear -H1. repeat (inversion H1 as [|? ? ? ? [_ ->] H2]; subst; clear H1; rename H2 into H1). inversion H1. reflexivity.
    - clear -H2. rename H2 into H1. repeat (inversion H1 as [|? ? ? ? [_ ->] H2]; subst; clear H1; rename H2 into H1). inversion H1. reflexivity. }
  assert (Hcl : client_twin true D g (command ci) (command c')).
  { rewrite E. unfold command.
    assert (Hd : forall a, a ∈ chain_handles ci -> D a).
    { intros a Ha. left. vm_compute in Ha. clear -Ha. vm_compute. set_solver. }
    apply (twin_call true D g (KSetPositions ci [f 5; f 0; f 0])); [auto|exact Hd|]. intros r r' Er. cbn in Er. subst r'.
    apply (twin_call true D g (KPositions ci)); [auto|exact Hd|]. intros ps ps' Ep. cbn in Ep. subst ps'. apply twin_finish. }
  split; [exact Hcl|]. apply Ht, Hcl.
Qed.

(** C86.  The order of the mimic links matters: [clone] makes them in the order of the chain, so where they were made in
    another order the clone and the original can end in different positions after the same command. *)
Theorem C86_clone_order_refuted :
  ~ forall (h : gmap nat (node spec_float)) nx tr c fuel c' s',
      heap_ok h nx -> forest h -> tree_in h tr -> (forall n, h !! troot tr = Some n -> n_parent n = None) ->
      (forall a m, a ∈ preorder_last tr -> live_mimic_parent h a m -> m ∈ preorder_last tr) ->
      mimics_complete h (preorder_last tr) -> chain_of h (preorder_last tr) c -> tsize tr < fuel -> unbranched h (preorder_last tr) ->
      run 0 (chain_clone fuel c) (quiet h nx) = Done c' s' ->
      fst <$> final (run 0 (denote (command c)) (quiet h nx)) = fst <$> final (run 0 (denote (command c')) s').
Proof.
  intros H.
  assert (K1 : heap_ok hj 4) by (apply heap_okb_sound; vm_compute; reflexivity).
  assert (K2 : forest hj) by (apply forestb_sound; vm_compute; reflexivity).
  assert (K3 : tree_in hj iso_tree). { repeat (econstructor; [vm_compute; reflexivity|reflexivity|]; repeat constructor). }
  assert (K4 : forall n, hj !! troot iso_tree = Some n -> n_parent n = None). { intros n Hn. vm_compute in Hn. injection Hn as <-. reflexivity. }
  assert (K5 : forall a m, a ∈ preorder_last iso_tree -> live_mimic_parent hj a m -> m ∈ preorder_last iso_tree).
  { intros a m Ha (n & Hn & Hm & _). each4 Ha; vm_compute in Hn; injection Hn as <-; try discriminate Hm; injection Hm as <-; vm_compute; set_solver. }
  assert (K6 : mimics_complete hj (preorder_last iso_tree)).
  { intros a n m Ha Hn (n' & Hn' & Hm & _). each4 Ha; vm_compute in Hn; injection Hn as <-; vm_compute in Hn'; injection Hn' as <-; try discriminate Hm; eexists; reflexivity. }
  assert (K7 : chain_of hj (preorder_last iso_tree) ci) by (unfold chain_of; vm_compute; repeat split).
  assert (K8 : tsize iso_tree < 9) by (vm_compute; lia).
  assert (K9 : unbranched hj (preorder_last iso_tree)).
  { intros a n Ha Hn. each4 Ha; vm_compute in Hn; injection Hn as <-; cbn; lia. }
  destruct (C24_isomorphic_copy 0 hj 4 iso_tree ci 9 K1 K2 K3 K4 K5 K6 K7 K8) as (c' & h' & nx' & g & R & _).
  specialize (H hj 4 iso_tree ci 9 c' _ K1 K2 K3 K4 K5 K6 K7 K8 K9 R).
  assert (E : fst <$> final (run 0 (c <- chain_clone 9 ci ;; denote (command c)) (quiet hj 4)) <> fst <$> final (run 0 (denote (command ci)) (quiet hj 4))).
  { vm_compute. intros E. discriminate E. }
  rewrite run_bind, R in E. apply E. symmetry. exact H.
Qed.
Print Assumptions C86_clone_order_refuted.
