(** * C87: the verdict of the solver is what its iterations did *)
From Coq Require Import String NArith ZArith Floats.SpecFloat Sorting.Sorted Lia.
From stdpp Require Import gmap.
From Verif Require Import Scalar ScalarR ScalarF Geometry Joint Link Prog NodeM ChainM FuncsM IkM RunLemmas SpecJoint SpecNode SpecGraph SpecChain ChainProofs SpecFK FKProofs
  SpecIk IkLookup IkProofs IkProofs2 ErrorIk SpecStep StepProofs SpecVerdict VerdictProofs Ex PropGraph PropChain PropFK PropIk.
Local Open Scope nat_scope.

(** C87: from a start inside the limits the solver returns one of three results.  [Ok]: some
    iteration was the first to bring the end on target, and the joints were then put inside
    their limits.  [InverseMatrixError]: an iteration after some misses could not solve its
    system.  [NotConvergedError]: all iterations missed, and what it reports is how far the
    last one left the end from the target. *)
Theorem C87_verdict {T} `{Scalar T} t ovf (la : linalg T) (sv : solver T) (h : gmap nat (node T)) nx arm target c idx r s :
  chain_of h (c_nodes arm) arm -> all_live h (c_nodes arm) -> NoDup (c_movable arm) -> plain h (c_movable arm) -> inside_limits h (c_movable arm) ->
  ignored_at h arm c idx -> count (flags c) + length idx <= c_dof arm -> 0 < num_max_try sv ->
  run t (solve_with_constraints ovf la sv arm target c) (quiet h nx) = Done r s ->
  let missed := missed t nx ovf la sv arm target c idx in
  match r with
  | Ok _ => exists k h1 h2 h3 w, k < num_max_try sv /\ missed k h h1 /\
      tries t nx ovf la sv arm target c idx h1 h2 w /\ on_target sv c target w /\ put_inside (c_movable arm) h2 h3 /\ s = quiet h3 nx
  | Err InverseMatrixError => exists k h1 h2, k < num_max_try sv /\ missed k h h1 /\
      run t (solve_one_loop_with_constraints ovf la sv arm target (flags c) idx) (quiet h1 nx) = Done (Err InverseMatrixError) (quiet h2 nx)
  | Err (NotConvergedError n p q) => n = num_max_try sv /\ exists h1 w, missed n h h1 /\
      run t (end_transform arm) (quiet h1 nx) = Done w (quiet h1 nx) /\ p = position_error c target w /\ q = rotation_error c target w
  | _ => False
  end.
Proof.
  intros Hc Hl Hnd Hpl Hin Hi Hcnt H0 E missed.
  destruct (solve_cases t nx ovf la sv arm target c h Hc Hl idx r s Hi Hcnt E) as [(k & h1 & h2 & w & Hk & Hm & Ht & Hon)|[(k & h1 & h2 & e & Hk & Hm & Et)|(h1 & Hm)]].
  - destruct (solve_hits t nx ovf la sv arm target c h Hc Hl idx k h1 h2 w Hnd Hi Hcnt Hk Hm Ht Hon) as (h3 & H3 & E3). rewrite E in E3.
    apply (f_equal (fun o => match o with Done x s => Some (x, s) | _ => None end)) in E3. cbv beta iota in E3. inversion E3; subst. exists k, h1, h2, h3, w. auto 10.
  - pose proof (one_loop_err _ _ _ _ _ _ _ _ _ _ _ _ Et) as ->.
    destruct (solve_stops t nx ovf la sv arm target c h Hc Hl Hpl Hin idx k h1 h2 _ Hi Hcnt Hk Hm Et) as (s' & E3). rewrite E in E3.
    apply (f_equal (fun o => match o with Done x s => Some x | _ => None end)) in E3. cbv beta iota in E3. inversion E3; subst. eauto 10.
  - destruct (solve_misses t nx ovf la sv arm target c h Hc Hl Hpl Hin idx h1 Hi Hcnt H0 Hm) as (w & s' & Hw & _ & E3). rewrite E in E3.
    apply (f_equal (fun o => match o with Done x s => Some x | _ => None end)) in E3. cbv beta iota in E3. inversion E3; subst. eauto 10.
Qed.
Print Assumptions C87_verdict.

(** C87, conversely: the first hit in time is a success ... *)
Theorem C87_hit {T} `{Scalar T} t ovf (la : linalg T) (sv : solver T) (h : gmap nat (node T)) nx arm target c idx k h1 h2 w :
  chain_of h (c_nodes arm) arm -> all_live h (c_nodes arm) -> NoDup (c_movable arm) ->
  ignored_at h arm c idx -> count (flags c) + length idx <= c_dof arm -> k < num_max_try sv ->
  missed t nx ovf la sv arm target c idx k h h1 -> tries t nx ovf la sv arm target c idx h1 h2 w -> on_target sv c target w ->
  exists h3, put_inside (c_movable arm) h2 h3 /\ run t (solve_with_constraints ovf la sv arm target c) (quiet h nx) = Done (Ok tt) (quiet h3 nx).
Proof. intros Hc Hl Hnd Hi Hcnt. exact (solve_hits t nx ovf la sv arm target c h Hc Hl idx k h1 h2 w Hnd Hi Hcnt). Qed.
Print Assumptions C87_hit.
(** ... a system that cannot be solved is an [InverseMatrixError] ... *)
Theorem C87_stop {T} `{Scalar T} t ovf (la : linalg T) (sv : solver T) (h : gmap nat (node T)) nx arm target c idx k h1 h2 e :
  chain_of h (c_nodes arm) arm -> all_live h (c_nodes arm) -> plain h (c_movable arm) -> inside_limits h (c_movable arm) ->
  ignored_at h arm c idx -> count (flags c) + length idx <= c_dof arm -> k < num_max_try sv ->
  missed t nx ovf la sv arm target c idx k h h1 ->
  run t (solve_one_loop_with_constraints ovf la sv arm target (flags c) idx) (quiet h1 nx) = Done (Err e) (quiet h2 nx) ->
  e = InverseMatrixError /\ exists s, run t (solve_with_constraints ovf la sv arm target c) (quiet h nx) = Done (Err InverseMatrixError) s.
Proof.
  intros Hc Hl Hpl Hin Hi Hcnt Hk Hm Et. pose proof (one_loop_err _ _ _ _ _ _ _ _ _ _ _ _ Et) as ->. split; [reflexivity|].
  exact (solve_stops t nx ovf la sv arm target c h Hc Hl Hpl Hin idx k h1 h2 _ Hi Hcnt Hk Hm Et).
Qed.
Print Assumptions C87_stop.
(** ... and misses only are a [NotConvergedError] *)
Theorem C87_missed {T} `{Scalar T} t ovf (la : linalg T) (sv : solver T) (h : gmap nat (node T)) nx arm target c idx h1 :
  chain_of h (c_nodes arm) arm -> all_live h (c_nodes arm) -> plain h (c_movable arm) -> inside_limits h (c_movable arm) ->
  ignored_at h arm c idx -> count (flags c) + length idx <= c_dof arm -> 0 < num_max_try sv ->
  missed t nx ovf la sv arm target c idx (num_max_try sv) h h1 ->
  exists w s, run t (end_transform arm) (quiet h1 nx) = Done w (quiet h1 nx) /\ ~ on_target sv c target w /\
    run t (solve_with_constraints ovf la sv arm target c) (quiet h nx) =
      Done (Err (NotConvergedError (num_max_try sv) (position_error c target w) (rotation_error c target w))) s.
Proof. intros Hc Hl Hpl Hin. exact (solve_misses t nx ovf la sv arm target c h Hc Hl Hpl Hin idx h1). Qed.
Print Assumptions C87_missed.

Section More.
  Context {T : Type} `{Sc : Scalar T}.
  Definition patient (sv : solver T) (n : nat) : solver T :=
    Solver (allowable_target_distance sv) (allowable_target_angle sv) (jacobian_multiplier sv) n (nullspace_function sv).
  Definition tolerant (sv : solver T) (d a : T) : solver T := Solver d a (jacobian_multiplier sv) (num_max_try sv) (nullspace_function sv).
  Lemma loop_more t ovf la sv arm target ops idx orig m n : forall n' last last' s s',
    n <= n' -> run t (ik_loop ovf la sv arm target ops idx orig n last) s = Done (Ok tt) s' ->
    run t (ik_loop ovf la (patient sv m) arm target ops idx orig n' last') s = Done (Ok tt) s'.
  Proof.
    induction n as [|n IH]; intros n' last last' s s' Hn E; cbn [ik_loop] in E.
    - exfalso. apply run_bind_inv in E as ([?|e] & s1 & _ & E); [|discriminate]. apply run_bind_inv in E as (lr & s2 & _ & E). discriminate.
    - destruct n' as [|n']; [lia|]. cbn [ik_loop]. rewrite run_bind in *.
      change (solve_one_loop_with_constraints ovf la (patient sv m) arm target ops idx) with (solve_one_loop_with_constraints ovf la sv arm target ops idx).
      destruct (run t (solve_one_loop_with_constraints _ _ _ _ _ _ _) s) as [[d|e] s1| | | |]; try discriminate E. cbn [obind] in *.
      change (reached (patient sv m)) with (reached sv). destruct (reached _ _); [exact E|]. eapply IH; [lia|exact E].
  Qed.
  Lemma loop_tolerant t ovf la sv arm target ops idx orig d a n :
    (forall x, slt x (allowable_target_distance sv) = true -> slt x d = true) ->
    (forall x, slt x (allowable_target_angle sv) = true -> slt x a = true) ->
    forall last last' h nx s', chain_of h (c_nodes arm) arm -> all_live h (c_nodes arm) ->
    run t (ik_loop ovf la sv arm target ops idx orig n last) (quiet h nx) = Done (Ok tt) s' ->
    exists s'', run t (ik_loop ovf la (tolerant sv d a) arm target ops idx orig n last') (quiet h nx) = Done (Ok tt) s''.
  Proof.
    intros Hd Ha. induction n as [|n IH]; intros last last' h nx s' Hc Hl E; cbn [ik_loop] in E.
    - exfalso. apply run_bind_inv in E as ([?|e] & s1 & _ & E); [|discriminate]. apply run_bind_inv in E as (lr & s2 & _ & E). discriminate.
    - cbn [ik_loop]. apply run_bind_inv in E as ([df|e] & s1 & E1 & E); [|discriminate].
      rewrite run_bind. change (solve_one_loop_with_constraints ovf la (tolerant sv d a) arm target ops idx) with (solve_one_loop_with_constraints ovf la sv arm target ops idx).
      rewrite E1. cbn [obind]. apply one_loop_ok in E1 as (h1 & w & -> & Hf & Ho & Hw & ->); [|assumption|assumption].
      destruct (chain_mov_step h h1 arm Hf Hc Hl) as [Hc1 Hl1].
      destruct (reached (tolerant sv d a) _) eqn:R2.
      + destruct (run_positions t h1 nx arm _ Hc1) as (ps & Hps & _). rewrite run_bind, Hps. cbn [obind].
        rewrite run_bind, run_clamped by (eapply movable_live; exact Hc1). cbn. eauto.
      + destruct (reached sv _) eqn:R1; [|eapply IH; eauto].
        exfalso. unfold reached in R1, R2. apply andb_true_iff in R1 as [R1 R1']. cbn [allowable_target_distance allowable_target_angle tolerant] in R2.
        rewrite (Hd _ R1), (Ha _ R1') in R2. discriminate.
  Qed.
End More.
(** C87: a solver that may try more often succeeds as well, in the same state *)
Theorem C87_more_tries {T} `{Scalar T} t ovf (la : linalg T) (sv : solver T) arm target c n' s s' :
  num_max_try sv <= n' ->
  run t (solve_with_constraints ovf la sv arm target c) s = Done (Ok tt) s' ->
  run t (solve_with_constraints ovf la (Solver (allowable_target_distance sv) (allowable_target_angle sv) (jacobian_multiplier sv) n' (nullspace_function sv)) arm target c) s
    = Done (Ok tt) s'.
Proof.
  intros Hn E. unfold solve_with_constraints in *. rewrite run_bind in *. destruct (run t (joint_positions arm) s) as [orig s1| | | |]; try discriminate E. cbn [obind] in *.
  rewrite run_bind in *.
  match type of E with obind (run t (solve_with_constraints_internal _ _ _ _ _ _) _) _ = _ =>
    destruct (run t (solve_with_constraints_internal ovf la sv arm target c) s1) as [re s2| | | |] eqn:E1; try discriminate E end.
  cbn [obind] in E. destruct re as [[]|e].
  2:{ exfalso. cbn [is_err is_ok negb] in E. apply run_bind_inv in E as ([?|e'] & s3 & _ & E); discriminate. }
  cbn [is_err is_ok negb] in E. apply (f_equal (fun o => match o with Done _ s => Some s | _ => None end)) in E; cbn in E; apply Some_inj in E; subst s'.
  unfold solve_with_constraints_internal in *. cbn zeta in *. rewrite run_bind in *. destruct (run t (joint_positions arm) s1) as [orig' s3| | | |]; try discriminate E1. cbn [obind] in *.
  rewrite run_bind in *. destruct (run t (usize_sub _ _ _) s3) as [av s4| | | |]; try discriminate E1. cbn [obind] in *.
  destruct (decide _); [discriminate E1|]. rewrite run_bind in *. destruct (run t (ignored_indices _ _) s4) as [[idx|e] s5| | | |]; try discriminate E1. cbn [obind num_max_try] in *.
  pose proof (loop_more t ovf la sv arm target _ _ _ n' _ _ _ None _ _ Hn E1) as HL. unfold patient in HL. rewrite HL. reflexivity.
Qed.
Print Assumptions C87_more_tries.
(** C87: and so does a solver with wider tolerances, though perhaps somewhere else *)
Theorem C87_wider {T} `{Scalar T} t ovf (la : linalg T) (sv : solver T) (h : gmap nat (node T)) nx arm target c d a s :
  chain_of h (c_nodes arm) arm -> all_live h (c_nodes arm) ->
  (forall x, slt x (allowable_target_distance sv) = true -> slt x d = true) -> (forall x, slt x (allowable_target_angle sv) = true -> slt x a = true) ->
  run t (solve_with_constraints ovf la sv arm target c) (quiet h nx) = Done (Ok tt) s ->
  exists s', run t (solve_with_constraints ovf la (Solver d a (jacobian_multiplier sv) (num_max_try sv) (nullspace_function sv)) arm target c) (quiet h nx) = Done (Ok tt) s'.
Proof.
  intros Hc Hl Hd Ha E. unfold solve_with_constraints in *. destruct (run_positions t h nx arm _ Hc) as (orig & Horig & _). rewrite run_bind, Horig in E. rewrite run_bind, Horig.
  cbn [obind] in *. rewrite run_bind in *.
  match type of E with obind (run t (solve_with_constraints_internal _ _ _ _ _ _) _) _ = _ =>
    destruct (run t (solve_with_constraints_internal ovf la sv arm target c) (quiet h nx)) as [re s2| | | |] eqn:E1; try discriminate E end.
  cbn [obind] in E. destruct re as [[]|e].
  2:{ exfalso. cbn [is_err is_ok negb] in E. apply run_bind_inv in E as ([?|e'] & s3 & _ & E); discriminate. }
  clear E s. unfold solve_with_constraints_internal in *. cbn zeta in *. rewrite run_bind, Horig in E1. rewrite run_bind, Horig. cbn [obind] in *.
  apply run_bind_inv in E1 as (av & s1 & Eav & E1). pose proof (inert_usize_sub _ _ _ _ _ _ _ Eav) as ->. rewrite run_bind, Eav. cbn [obind].
  destruct (decide _); [discriminate E1|].
  destruct (run_ignored_indices t h nx arm (ignored_joint_names c)) as (ri & Hri & _); [eapply movable_live; eauto|].
  rewrite run_bind, Hri in E1. rewrite run_bind, Hri. cbn [obind] in *. destruct ri as [idx|]; [|discriminate E1].
  destruct (loop_tolerant t ovf la sv arm target _ _ _ d a _ Hd Ha _ None h nx _ Hc Hl E1) as (s' & E2). unfold tolerant in E2. cbn [num_max_try]. rewrite E2.
  cbn. eauto.
Qed.
Print Assumptions C87_wider.

(** ** the pole of C32, asked for height 30: it ends at 12 after four misses *)
Example C87_case : let s := after pole in let c := only_z [] in
  chain_of (heap s) (c_nodes pole3) pole3 /\ all_live (heap s) (c_nodes pole3) /\ NoDup (c_movable pole3) /\ plain (heap s) (c_movable pole3) /\
  inside_limits (heap s) (c_movable pole3) /\ ignored_at (heap s) pole3 c [] /\ (count (flags c) + 0 <= c_dof pole3) /\
  (fst <$> final (run 0 (solve_with_constraints true la1 (sv1 4) pole3 (up 30) c) s)) = Some (Err (NotConvergedError 4 (V3 (f 0) (f 0) (f 18)) (V3 (f 0) (f 0) (f 0)))) /\
  (fst <$> final (run 0 (solve_with_constraints true la1 (sv1 4) pole3 (up 12) c) s)) = Some (Ok tt).
Proof.
  cbv zeta. split; [unfold chain_of; vm_compute; repeat split|]. split; [apply all_live_check; vm_compute; reflexivity|].
  split; [cbn; repeat constructor; set_solver|]. split; [apply plain_check; [cbn; repeat constructor; set_solver|vm_compute; reflexivity]|].
  split; [apply inside_check; vm_compute; reflexivity|].
  split; [exists []; split; [constructor|]; split; [reflexivity|constructor]|]. split; [vm_compute; lia|]. split; vm_compute; reflexivity.
Qed.
(** with one try it does not reach height 12 *)
Example C87_case_tries : let s := after pole in let c := only_z [] in
  (fst <$> final (run 0 (solve_with_constraints true la1 (sv1 1) pole3 (up 12) c) s)) <> Some (Ok tt).
Proof. cbv zeta. vm_compute. discriminate. Qed.
