(** * C05, C14, C33, C41: all histories of calls, all interleavings *)
From Coq Require Import String ZArith Reals Floats.SpecFloat.
From stdpp Require Import gmap.
From Verif Require Import Scalar ScalarR ScalarF Geometry Joint Link Prog NodeM ChainM FuncsM IkM SpecJoint SpecNode SpecGraph
  SpecChain Api SpecHist HistProofs FrameProofs Ex ExApi PropNode.

(** C05.  [cl] is any client program: any number of calls, each chosen from the
    results of the earlier ones, none of them an unchecked setter or a clamping
    setter given NaN, new joints inside their limits.  In whatever state it ends
    (returned, panicked, hanging), all joints are inside their limits: those
    alive at the start, and those whose handles it created or found. *)
Theorem C05_all_joints_stay_inside {T} `{Scalar T} `{!OrdLaws T} {A} (t : nat) (h : gmap nat (node T)) nx
    (cl : client T A) (hs : A -> list nat) :
  heap_ok h nx ->
  (forall a n, h !! a = Some n -> limits_wf (n_joint n) /\ inside (n_joint n)) ->
  obeys checked_call_inside hs (alive h) cl ->
  forall s, final_state (run t (denote cl) (quiet h nx)) = Some s ->
  (forall a, alive h a -> exists n, heap s !! a = Some n /\ limits_wf (n_joint n) /\ inside (n_joint n)) /\
  (forall x, run t (denote cl) (quiet h nx) = Done x s -> forall a, a ∈ hs x ->
     exists n, heap s !! a = Some n /\ limits_wf (n_joint n) /\ inside (n_joint n)).
Proof. exact (checked_history t h nx cl hs). Qed.
Print Assumptions C05_all_joints_stay_inside.

(** C05, one joint at a time: it stays inside even if other joints start outside *)
Theorem C05_joint_stays_inside {T} `{Scalar T} `{!OrdLaws T} {A} (t : nat) (h : gmap nat (node T)) nx (cl : client T A) :
  heap_ok h nx -> obeys checked_call (fun _ => []) (alive h) cl ->
  forall s, final_state (run t (denote cl) (quiet h nx)) = Some s ->
  forall a n, h !! a = Some n -> limits_wf (n_joint n) -> inside (n_joint n) ->
  exists n', heap s !! a = Some n' /\ inside (n_joint n') /\ j_limits (n_joint n') = j_limits (n_joint n).
Proof. exact (checked_history_one t h nx cl). Qed.
Print Assumptions C05_joint_stays_inside.

(** C05, last sentence: a freshly built joint may be outside its limits *)
Theorem C05_fresh_joint_refuted :
  ~ forall j : joint spec_float, (exists name ty r, j = builder_finalize name ty (Some r) iso1 /\ sle (rmin r) (rmax r) = true) ->
      inside j.
Proof.
  intros H. specialize (H (lin "a" 1 2)).
  destruct H with (r := Range (f 1) (f 2)) as [H1 _]; [|discriminate|reflexivity|].
  - exists "a"%string, (Linear z_axis), (Range (f 1) (f 2)). split; reflexivity.
  - vm_compute in H1. discriminate.
Qed.
Print Assumptions C05_fresh_joint_refuted.

(** C14: for any chain over live nodes, whatever calls happened since, and
    [joint_positions] returns the current positions; no joint changed its type. *)
Theorem C14_joint_positions {T} `{Scalar T} {A} (t : nat) (h : gmap nat (node T)) nx (cl : client T A) l c :
  heap_ok h nx -> chain_of h l c -> obeys any_call (fun _ => []) (alive h) cl ->
  forall x s, run t (denote cl) (quiet h nx) = Done x s ->
  exists ps, run t (joint_positions c) s = Done ps s /\ length ps = c_dof c /\
    map Some ps = map (position_at (heap s)) (c_movable c).
Proof. exact (history_positions t h nx cl l c). Qed.
Print Assumptions C14_joint_positions.

Theorem C14_types_immutable {T} `{Scalar T} {A} (t : nat) (h : gmap nat (node T)) nx po (cl : client T A) :
  heap_ok h nx -> obeys any_call (fun _ => []) (alive h) cl ->
  run t (denote cl) (Sh h nx ∅ po) <> Stuck /\
  forall s, final_state (run t (denote cl) (Sh h nx ∅ po)) = Some s ->
  forall a n, h !! a = Some n -> exists n', heap s !! a = Some n' /\
    j_type (n_joint n') = j_type (n_joint n) /\ j_name (n_joint n') = j_name (n_joint n) /\
    j_limits (n_joint n') = j_limits (n_joint n).
Proof. exact (history_keeps t h nx po cl). Qed.
Print Assumptions C14_types_immutable.

(** C14: [dof()] is the number of movable nodes of the chain and the number of
    values [joint_positions()] returns, and stays so over any history. *)
Theorem C14_dof {T} `{Scalar T} {A} (t : nat) (h : gmap nat (node T)) nx (cl : client T A) l c :
  heap_ok h nx -> chain_of h l c -> all_live h l -> obeys any_call (fun _ => []) (alive h) cl ->
  dof c = length (List.filter (node_movable h) l) /\
  forall x s, run t (denote cl) (quiet h nx) = Done x s ->
  dof c = length (List.filter (node_movable (heap s)) l) /\
  exists ps, run t (joint_positions c) s = Done ps s /\ length ps = dof c.
Proof.
  intros Hok Hc Hl Ho. split; [exact (proj2 (proj2 Hc))|]. intros x s R.
  destruct (C14_joint_positions t h nx cl l c Hok Hc Ho x s R) as (ps & Rp & Hp & _).
  split; [|exists ps; auto].
  change (c_dof c = length (List.filter (node_movable (heap s)) l)). rewrite (proj2 (proj2 Hc)). f_equal.
  apply List.filter_ext_in. intros a Ha. apply elem_of_list_In in Ha.
  destruct (Hl a Ha) as [n Hn].
  destruct (C14_types_immutable t h nx ∅ cl Hok Ho) as [_ Hk]. fold (quiet h nx) in Hk. rewrite R in Hk.
  destruct (Hk s eq_refl a n Hn) as (n' & Hn' & Ht & _). unfold node_movable. rewrite Hn, Hn', Ht. reflexivity.
Qed.
Print Assumptions C14_dof.

(** C33: however a solver call ends, every node has the same structure, link,
    name, type, limits and origin; its position changed only if it is a movable
    node of the arm or a mimic child of one; nodes that are neither in the arm
    nor such a mimic child are untouched (caches included). *)
Theorem C33_solver_frame {T} `{Scalar T} (t : nat) ovf (la : linalg T) (sv : solver T) (h : gmap nat (node T)) nx c target cs :
  heap_ok h nx -> all_live h (c_nodes c) -> all_live h (c_movable c) ->
  forall s, final_state (run t (solve_with_constraints ovf la sv c target cs) (quiet h nx)) = Some s ->
  forall a n, h !! a = Some n -> exists n', heap s !! a = Some n' /\
    node_same_but_joint n n' /\ same_but_position (n_joint n) (n_joint n') /\
    (a ∉ c_movable c -> ~ (exists b nb, b ∈ c_movable c /\ h !! b = Some nb /\ a ∈ n_mimic_children nb) ->
       j_position (n_joint n') = j_position (n_joint n)) /\
    (a ∉ c_nodes c -> a ∉ c_movable c ->
       ~ (exists b nb, b ∈ c_movable c /\ h !! b = Some nb /\ a ∈ n_mimic_children nb) -> n' = n).
Proof. exact (solver_frame t ovf la sv h nx c target cs). Qed.
Print Assumptions C33_solver_frame.

(** C41: at every instant of every interleaving of any number of client programs
    a joint that started inside its limits is inside them, and whoever is about
    to read or write a node holds its lock. *)
Theorem C41_threads {T} `{Scalar T} `{!OrdLaws T} {A} (h : gmap nat (node T)) nx po (cls : list (client T A)) c :
  heap_ok h nx -> (forall cl, cl ∈ cls -> obeys checked_call (fun _ => []) (alive h) cl) ->
  tsteps (spawn cls, Sh h nx ∅ po) c ->
  (forall a n, h !! a = Some n -> limits_wf (n_joint n) -> inside (n_joint n) ->
     exists n', heap c.2 !! a = Some n' /\ inside (n_joint n') /\ j_limits (n_joint n') = j_limits (n_joint n)) /\
  (forall t a k, c.1 !! t = Some (Running (Get a k)) -> locks c.2 !! a = Some t /\ is_Some (heap c.2 !! a)) /\
  (forall t a n k, c.1 !! t = Some (Running (Put a n k)) -> locks c.2 !! a = Some t).
Proof. exact (checked_threads h nx po cls c). Qed.
Print Assumptions C41_threads.

(** ** Concrete cases *)
Definition h_mimic : gmap nat (node spec_float) := heap (after ex_mimic).
Example hist_case_heap : heap_ok h_mimic 5.
Proof. apply heap_okb_sound. vm_compute. reflexivity. Qed.
Example hist_case_inside : forall a n, h_mimic !! a = Some n -> limits_wf (n_joint n) /\ inside (n_joint n).
Proof. apply all_insideb_sound. vm_compute. reflexivity. Qed.
(** a client that builds a node, hangs it under node 0, clones the chain from
    node 0 and moves the first node of the clone *)
Definition hist_client : client spec_float (list nat) :=
  Call (KNew (lin "new" (-1) 1)) (fun a =>
  Call (KSetParent a 0) (fun _ =>
  Call (KSetPosition a (f 7)) (fun _ =>
  Call (KSetPosition 0 (f 1)) (fun _ =>
  Call (KFromRoot 10 0) (fun c =>
  Call (KClone 10 c) (fun c' =>
  Call (KSetPositionsClamped c' [f 50; f 60]) (fun _ =>
  Finish (a :: c_nodes c')))))))).
Example hist_case_client : obeys checked_call_inside (fun l => l) (alive h_mimic) hist_client.
Proof.
  unfold hist_client.
  assert (H0 : alive h_mimic 0) by (vm_compute; eauto).
  cbn [obeys]. unfold checked_call_inside. cbn [checked_call args rets].
  split. { split; [exact I|]. apply insideb_sound. vm_compute. reflexivity. }
  split; [set_solver|]. intros a.
  split; [tauto|]. split; [intros b Hb; repeat (apply elem_of_cons in Hb as [->|Hb]); [right; set_solver|left; assumption|inversion Hb]|]. intros _.
  split; [tauto|]. split; [set_solver|]. intros _.
  split; [tauto|]. split; [set_solver|]. intros _.
  split; [tauto|]. split; [set_solver|]. intros c.
  split; [tauto|]. split; [set_solver|]. intros c'.
  split. { split; [|exact I]. intros p Hp. repeat (apply elem_of_cons in Hp as [->|Hp]); [vm_compute; reflexivity|vm_compute; reflexivity|inversion Hp]. }
  split; [set_solver|]. intros _.
  intros b Hb. unfold chain_handles. set_solver.
Qed.
(** the client runs to the end; new node 5 refused 7; the clone (6, 7) was
    clamped to 10 and -- its second joint being the copy of "new" -- to 1 *)
Example hist_case_run :
  match run 0 (denote (Sc := EF) hist_client) (quiet h_mimic 5) with
  | Done l s => l = [5; 6; 7] /\ map (pos_of s) [0; 1; 2; 5; 6; 7] =
      [Some (f 1); Some (f 3); Some (f 1); Some (f 0); Some (f 10); Some (f 1)]
  | _ => False
  end.
Proof. vm_compute. auto. Qed.
(** C41's premises: three threads moving the same nodes *)
Example C41_case_clients : forall cl,
  cl ∈ [Call (KSetPosition 0 (f 1)) (fun _ => Finish tt); Call (KSetClamped 1 (f 70)) (fun _ => Finish tt);
        Call (KSetPosition 0 (f 9)) (fun _ => Finish tt)] ->
  obeys checked_call (fun _ => []) (alive h_mimic) cl.
Proof.
  intros cl Hcl. repeat (apply elem_of_cons in Hcl as [->|Hcl]); [| | |inversion Hcl]; cbn.
  - split; [exact I|]. split; [|set_solver]. intros b Hb. apply elem_of_list_singleton in Hb as ->. vm_compute. eauto.
  - split; [reflexivity|]. split; [|set_solver]. intros b Hb. apply elem_of_list_singleton in Hb as ->. vm_compute. eauto.
  - split; [exact I|]. split; [|set_solver]. intros b Hb. apply elem_of_list_singleton in Hb as ->. vm_compute. eauto.
Qed.
(** over the reals the solver is one of the allowed calls *)
Example C05_case_reals ovf la (sv : solver R) c target : checked_call _ (KSolve ovf la sv c target).
Proof. intros x. unfold snum. cbn. unfold Rleb. destruct (Rle_dec x x) as [_|n]; [reflexivity|]. exfalso. apply n. apply Rle_refl. Qed.
