(** * C61: what a panic leaves behind *)
From Coq Require Import String ZArith Floats.SpecFloat.
From stdpp Require Import gmap.
From Verif Require Import Scalar ScalarF Geometry Joint Link Prog NodeM ChainM FuncsM IkM SpecJoint SpecNode SpecGraph
  SpecChain Api SpecHist SpecPoison HistProofs PoisonProofs Ex ExApi PropNode PropHist.

(** C61.  One thread, any client program of any calls whatsoever, on chains it
    got from the crate: if a call panics, no guard is left locked and no node is
    poisoned, so the program can go on after catching the panic. *)
Theorem C61_panic_leaves_no_poison {T} `{Scalar T} {A} (t : nat) (h : gmap nat (node T)) nx (C : chain -> Prop) (cl : client T A) :
  heap_ok h nx -> mimic_both h -> (forall c, C c -> exists l, chain_of h l c) ->
  obeys any_call (fun _ => []) (alive h) cl -> real_chains C cl ->
  match run t (denote cl) (quiet h nx) with
  | Done _ s | Panicked _ s => locks s = ∅ /\ poison s = ∅
  | Deadlock _ _ | OutOfFuel _ => True
  | Stuck => False
  end.
Proof.
  intros H1 H2 H3 H4 H5. pose proof (client_panics_clean t h nx C cl H1 H2 H3 H5) as H6.
  pose proof (proj1 (history_keeps t h nx ∅ cl H1 H4)) as H7. unfold quiet in *.
  destruct (run t (denote cl) _); try exact I; try exact H6. congruence.
Qed.
Print Assumptions C61_panic_leaves_no_poison.

(** C61.  With other threads it is different (C42: jacobian racing with a setter
    poisons a node for ever), and poison spreads: set_joint_position panics only
    on a poisoned mimic child, then its own node is poisoned too, although its
    joint has moved; it returns Ok only if no mimic child is poisoned. *)
Theorem C61_poison_spreads {T} `{Scalar T} (t : nat) (h : gmap nat (node T)) nx (po : gset nat) a n p :
  h !! a = Some n -> a ∉ po ->
  match run t (node_set_joint_position a p) (Sh h nx ∅ po) with
  | Panicked m s =>
      (exists c, c ∈ n_mimic_children n /\ c ∈ po) /\
      m = poison_msg /\ poison s = po ∪ {[a]} /\ locks s = ∅ /\
      exists n', heap s !! a = Some n' /\ moved_to (n_joint n) p (n_joint n')
  | Done (Ok _) s => n_mimic_parent n = None -> forall c, c ∈ n_mimic_children n -> c ∉ po
  | _ => True
  end.
Proof.
  intros H1 H2. pose proof (set_position_poison t h nx po a n p H1 H2) as H3.
  destruct (run t (node_set_joint_position a p) _); try exact I; try exact H3.
  destruct H3 as (E1 & E2 & E3 & E4 & n' & E5 & E6 & E7). split; [exact E4|]. repeat split; try assumption.
  exists n'. split; [assumption|]. rewrite E6. revert E7. unfold joint_set, moved_to.
  destruct (negb _); [discriminate|]. destruct (j_limits _); [destruct (negb _)|]; cbn; try discriminate; auto 10.
Qed.
Print Assumptions C61_poison_spreads.

(** ** Concrete cases *)
(** building two nodes, taking the chain from the lower one, cloning it: panics *)
Definition poison_client : client spec_float unit :=
  Call (KNew (lin "a" (-10) 10)) (fun a => Call (KNew (rot "b")) (fun b =>
    Call (KSetParent b a) (fun _ => Call (KFromRoot 5 b) (fun c => Call (KClone 5 c) (fun _ => Finish tt))))).
Example C61_case_hypotheses : heap_ok (T := spec_float) ∅ 0 /\ mimic_both (T := spec_float) ∅ /\
  obeys any_call (fun _ => []) (alive (T := spec_float) ∅) poison_client /\ real_chains (fun _ => False) poison_client.
Proof.
  split; [apply heap_okb_sound; vm_compute; reflexivity|]. split; [intros a n Hn; rewrite lookup_empty in Hn; discriminate|].
  split; cbn; unfold any_call.
  - split; [exact I|]. split; [intros a Ha; inversion Ha|]. intros a. split; [exact I|]. split; [intros b Hb; inversion Hb|].
    intros b. split; [exact I|]. split; [intros x Hx; set_solver|]. intros _. split; [exact I|]. split; [intros x Hx; set_solver|].
    intros c. split; [exact I|]. split; [intros x Hx; right; exact Hx|]. intros c' x Hx. inversion Hx.
  - split; [intros c Hc; inversion Hc|]. intros a. split; [intros c Hc; inversion Hc|]. intros b. split; [intros c Hc; inversion Hc|].
    intros _. split; [intros c Hc; inversion Hc|]. intros c. split; [|intros; exact I]. intros c' Hc'. right. exact Hc'.
Qed.
Example C61_case :
  match run 0 (denote poison_client) (quiet ∅ 0) with
  | Panicked m s => m = "assertion failed: self.nodes[0].is_root()"%string /\ bool_decide (poison s = ∅) = true
  | _ => False
  end.
Proof. vm_compute. split; reflexivity. Qed.
(** node 0 drives 1, 2 and 3; node 2 is poisoned *)
Example C61_case_spreads :
  match run 0 (node_set_joint_position 0 (f 1)) (Sh h_mimic 5 ∅ {[2]}) with
  | Panicked m s => m = poison_msg /\ bool_decide (0 ∈ poison s) = true /\ pos_of s 0 = Some (f 1) /\
      pos_of s 1 = Some (f 3) /\ pos_of s 3 = Some (f 0)
  | _ => False
  end.
Proof. vm_compute. repeat split; reflexivity. Qed.
