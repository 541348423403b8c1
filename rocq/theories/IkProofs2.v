(** * More proofs about the solver: ignored joints, preconditions, masks, null space *)
From Coq Require Import String NArith Reals Sorting.Sorted Floats.SpecFloat.
From stdpp Require Import gmap.
From Verif Require Import Scalar ScalarR ScalarF Geometry Joint Link Prog NodeM ChainM FuncsM IkM RunLemmas
  SpecJoint SpecNode RangeProofs JointProofs NodeProofs SpecGraph GraphProofs SpecChain ChainProofs
  SpecFK FKProofs VelocityProofs IkLookup SpecIk IkProofs.

Section IkProofs2.
  Context {T : Type} `{Sc : Scalar T}.
  Implicit Types (h : gmap nat (node T)).

  (** ** an invariant of the successful loop *)
  Lemma ik_loop_inv {OL : OrdLaws T} t ovf la sv nx arm target ops idx orig (P : gmap nat (node T) -> Prop) :
    (forall h h', P h -> unch h h' -> P h') ->
    (forall h diff h', P h -> chain_of h (c_nodes arm) arm -> all_live h (c_nodes arm) -> limits_ok h (c_movable arm) ->
       rest h (c_movable arm) ->
       run t (solve_one_loop_with_constraints ovf la sv arm target ops idx) (quiet h nx) = Done (Ok diff) (quiet h' nx) -> P h') ->
    forall n h last s,
    chain_of h (c_nodes arm) arm -> all_live h (c_nodes arm) -> limits_ok h (c_movable arm) -> rest h (c_movable arm) -> P h ->
    run t (ik_loop ovf la sv arm target ops idx orig n last) (quiet h nx) = Done (Ok tt) s ->
    exists h', s = quiet h' nx /\ P h'.
  Proof.
    intros Hu Hstep. induction n as [|n IH]; intros h last s Hc Hl Hlim Hr HP E; cbn [ik_loop] in E.
    - apply run_bind_inv in E as ([?|e] & s1 & _ & E).
      + apply run_bind_inv in E as (lr & s2 & _ & E). discriminate.
      + discriminate.
    - apply run_bind_inv in E as ([diff|e] & s1 & E1 & E); [|discriminate].
      pose proof E1 as E1'. apply one_loop_ok in E1' as (h' & w & -> & Hf & Ho & Hw & ->); [|assumption|assumption].
      pose proof (Hstep h _ h' HP Hc Hl Hlim Hr E1) as HP'.
      apply one_loop_rest in E1 as (h'' & Eq & Hr'); [|assumption|assumption|assumption|left; assumption].
      apply (f_equal heap) in Eq. cbn in Eq. subst h''.
      destruct (chain_mov_step h h' arm Hf Hc Hl) as [Hc' Hl'].
      destruct (reached _ _) eqn:Hre.
      + destruct (run_positions t h' nx arm _ Hc') as (ps & Hps & Hlen & Hpos).
        rewrite run_bind, Hps in E. cbn [obind] in E. rewrite run_bind, run_clamped in E by (eapply movable_live; exact Hc').
        cbn [obind run] in E. injection E as <-. eexists. split; [reflexivity|]. eapply Hu; [exact HP'|].
        apply reclamp.
        * intros a Ha. apply (proj1 (rest_settled _ _) Hr'). eapply zip_fst_sub; exact Ha.
        * intros b m Hb Hm. eapply movable_type; [exact Hc'|eapply zip_fst_sub; exact Hb|exact Hm].
        * apply positions_match. assumption.
      + exact (IH h' _ s Hc' Hl' (frozen_limits _ _ _ Hf Hlim) Hr' HP' E).
  Qed.

  (** ** inserting the zero rows *)
  Lemma insert_rows_below t idx : forall (l l' : list T) s s' k x,
    Forall (fun j => k < j) idx -> l !! k = Some x ->
    run t (insert_rows idx l) s = Done l' s' -> l' !! k = Some x.
  Proof.
    induction idx as [|j idx IH]; intros l l' s s' k x Hk Hx E; cbn [insert_rows] in E.
    - injection E as <- _. assumption.
    - apply Forall_cons in Hk as [Hj Hk]. apply run_bind_inv in E as (l1 & s1 & E1 & E).
      unfold insert_nth in E1. destruct (decide _) as [Hd|]; [|discriminate]. injection E1 as <- _.
      eapply IH; [exact Hk| |exact E]. rewrite lookup_app_l.
      + rewrite lookup_take by assumption. assumption.
      + rewrite take_length. apply lookup_lt_Some in Hx. lia.
  Qed.
  Lemma insert_rows_zero t idx : forall (l l' : list T) s s' j,
    StronglySorted lt idx -> j ∈ idx -> run t (insert_rows idx l) s = Done l' s' -> l' !! j = Some szero.
  Proof.
    induction idx as [|i idx IH]; intros l l' s s' j Hs Hj E; [set_solver|]. cbn [insert_rows] in E.
    apply StronglySorted_inv in Hs as [Hs Hi]. apply run_bind_inv in E as (l1 & s1 & E1 & E).
    apply elem_of_cons in Hj as [->|Hj]; [|eapply IH; eauto].
    unfold insert_nth in E1. destruct (decide _) as [Hd|]; [|discriminate]. injection E1 as <- _.
    eapply insert_rows_below; [exact Hi| |exact E]. rewrite lookup_app_r by (rewrite take_length; lia).
    rewrite take_length. replace (i - i `min` length l) with 0 by lia. reflexivity.
  Qed.
  (** the positions proposed for ignored joints when there is redundant freedom *)
  Lemma new_positions_ignored t ovf la sv orig err J av req idx ps s s' :
    StronglySorted lt idx -> (N.of_nat req < av)%N ->
    run t (new_positions ovf la sv orig err J av req idx) s = Done (Ok ps) s' ->
    forall j p, j ∈ idx -> orig !! j = Some p -> ps !! j = Some (sadd p (smul (jacobian_multiplier sv) szero)).
  Proof.
    intros Hs Hav E j p Hj Hp. unfold new_positions in E. rewrite decide_True in E by assumption.
    assert (Hfin : forall d dq s1 s2, run t (insert_rows idx d) s1 = Done dq s2 ->
      ps = add_positions_with_multiplier sv orig dq -> ps !! j = Some (sadd p (smul (jacobian_multiplier sv) szero))).
    { intros d dq s1 s2 Hi ->. unfold add_positions_with_multiplier. apply lookup_zip_with_Some.
      eexists _, szero. split; [reflexivity|]. split; [assumption|]. eapply insert_rows_zero; eauto. }
    destruct (nullspace_function sv) as [fn|].
    - apply run_bind_inv in E as (jinv & s1 & E1 & E). apply run_bind_inv in E as (sub & s2 & E2 & E).
      apply run_bind_inv in E as (sub' & s3 & E3 & E). destruct (decide _) as [_|]; [|discriminate].
      apply run_bind_inv in E as (dq & s4 & E4 & E). injection E as <- _. eapply Hfin; [exact E4|reflexivity].
    - apply run_bind_inv in E as (dq & s1 & E1 & E). apply run_bind_inv in E as (dq' & s2 & E2 & E). injection E as <- _.
      eapply Hfin; [exact E2|reflexivity].
  Qed.
  (** when there is none *)
  Lemma new_positions_square t ovf la sv orig err J av req idx ps s s' :
    (av <= N.of_nat req)%N ->
    run t (new_positions ovf la sv orig err J av req idx) s = Done (Ok ps) s' ->
    exists d, lu_solve la J err = Some d /\ ps = add_positions_with_multiplier sv orig d.
  Proof.
    intros Hav E. unfold new_positions in E. rewrite decide_False in E by lia.
    destruct (lu_solve la J err) as [d|]; [|discriminate]. injection E as <- _. eauto.
  Qed.

  Definition clamp_to (o : option (range T)) (x : T) : T := match o with Some r => clamp r x | None => x end.
  Lemma position_upd_clamp h m (ps : list T) j a p n :
    NoDup m -> m !! j = Some a -> ps !! j = Some p -> h !! a = Some n -> movable (n_joint n) ->
    position_at (upd_all clampF h (zip m ps)) a = Some (clamp_to (j_limits (n_joint n)) p).
  Proof.
    intros Hnd Hj Hp Hn Hm. unfold position_at. rewrite (upd_all_at _ _ h a p).
    - rewrite Hn. cbn. destruct n as [? ? [nm ty pos vel lim o c1 c2] ? ? ? ?]. unfold clampF, joint_set_clamped, is_movable, movable in *.
      cbn in *. destruct ty; [congruence|reflexivity|reflexivity].
    - rewrite zip_fst. apply NoDup_take. assumption.
    - eapply zip_lookup; eauto.
  Qed.
  Lemma positions_at h m (l : list T) j a : map Some l = map (position_at h) m -> m !! j = Some a ->
    exists p, l !! j = Some p /\ position_at h a = Some p.
  Proof.
    intros E Hj. pose proof (positions_length _ _ _ E) as Hlen.
    destruct (lookup_lt_is_Some_2 l j) as [p Hp]; [rewrite Hlen; eapply lookup_lt_Some; eauto|].
    exists p. split; [assumption|]. eapply positions_match; [exact E|]. eapply zip_lookup; eauto.
  Qed.

  Lemma one_loop_ignored t ovf la sv h h' nx arm target ops idx diff :
    chain_of h (c_nodes arm) arm -> all_live h (c_nodes arm) -> NoDup (c_movable arm) ->
    StronglySorted lt idx -> count_true ops + length idx < c_dof arm ->
    run t (solve_one_loop_with_constraints ovf la sv arm target ops idx) (quiet h nx) = Done (Ok diff) (quiet h' nx) ->
    forall j a n, j ∈ idx -> c_movable arm !! j = Some a -> h !! a = Some n ->
      position_at h' a = Some (clamp_to (j_limits (n_joint n)) (sadd (j_position (n_joint n)) (smul (jacobian_multiplier sv) szero))).
  Proof.
    intros Hc Hl Hnd Hs Hreq E j a n Hj Ha Hn.
    destruct (one_loop_done _ _ _ _ _ _ _ _ _ _ _ _ Hc Hl E) as
      (h2 & Eq & h1 & orig & err & J & av & ps & w & H1 & -> & Hpos & HJ & Hav & Hnew & Hw & ->).
    apply (f_equal heap) in Eq. cbn in Eq. subst h'.
    destruct (positions_at h _ orig j a Hpos Ha) as (p & Hp & Hpa). unfold position_at in Hpa. rewrite Hn in Hpa. injection Hpa as <-.
    destruct (unch_at _ _ _ _ H1 Hn) as (n1 & Hn1 & En). apply strip_eq in En as (_ & Ety & _ & _ & Elim & _). rewrite <- Elim.
    apply (position_upd_clamp h1 (c_movable arm) ps j); [assumption|assumption| |assumption|].
    - eapply new_positions_ignored; [exact Hs| |exact Hnew|exact Hj|exact Hp].
      unfold usize_sub, dof in Hav. rewrite decide_True in Hav by lia. injection Hav as <-. lia.
    - unfold movable. rewrite Ety. eapply movable_type; [exact Hc|eapply elem_of_list_lookup_2; exact Ha|exact Hn].
  Qed.
  (** without redundant freedom the corrections are handed to the first joints in
      order, ignored or not *)
  Lemma one_loop_square t ovf la sv h h' nx arm target ops idx diff :
    chain_of h (c_nodes arm) arm -> all_live h (c_nodes arm) -> NoDup (c_movable arm) ->
    count_true ops + length idx = c_dof arm ->
    run t (solve_one_loop_with_constraints ovf la sv arm target ops idx) (quiet h nx) = Done (Ok diff) (quiet h' nx) ->
    exists d : list T, forall j a n x, c_movable arm !! j = Some a -> h !! a = Some n -> d !! j = Some x ->
      position_at h' a = Some (clamp_to (j_limits (n_joint n)) (sadd (j_position (n_joint n)) (smul (jacobian_multiplier sv) x))).
  Proof.
    intros Hc Hl Hnd Hreq E.
    destruct (one_loop_done _ _ _ _ _ _ _ _ _ _ _ _ Hc Hl E) as
      (h2 & Eq & h1 & orig & err & J & av & ps & w & H1 & -> & Hpos & HJ & Hav & Hnew & Hw & ->).
    apply (f_equal heap) in Eq. cbn in Eq. subst h'.
    apply new_positions_square in Hnew as (d & _ & ->).
    2:{ unfold usize_sub, dof in Hav. rewrite decide_True in Hav by lia. injection Hav as <-. lia. }
    exists d. intros j a n x Ha Hn Hx.
    destruct (positions_at h _ orig j a Hpos Ha) as (p & Hp & Hpa). unfold position_at in Hpa. rewrite Hn in Hpa. injection Hpa as <-.
    destruct (unch_at _ _ _ _ H1 Hn) as (n1 & Hn1 & En). apply strip_eq in En as (_ & Ety & _ & _ & Elim & _). rewrite <- Elim.
    apply (position_upd_clamp h1 (c_movable arm) _ j); [assumption|assumption| |assumption|].
    - unfold add_positions_with_multiplier. apply lookup_zip_with_Some. eauto.
    - unfold movable. rewrite Ety. eapply movable_type; [exact Hc|eapply elem_of_list_lookup_2; exact Ha|exact Hn].
  Qed.

  (** ** the sorted list of indices *)
  Lemma sort_elem l x : x ∈ sort_unstable l <-> x ∈ l.
  Proof.
    induction l as [|y l IH]; [reflexivity|]. change (sort_unstable (y :: l)) with (insert_sorted y (sort_unstable l)).
    rewrite elem_of_cons, <- IH. generalize (sort_unstable l) as k. clear. intros k. induction k as [|z k IH]; cbn; [set_solver|].
    case_decide; [set_solver|]. rewrite elem_of_cons, IH. set_solver.
  Qed.
  Lemma insert_sorted_lt x l : StronglySorted lt l -> x ∉ l -> StronglySorted lt (insert_sorted x l).
  Proof.
    induction l as [|y l IH]; intros Hs Hx; cbn; [repeat constructor|].
    apply StronglySorted_inv in Hs as [Hs Hy]. case_decide as Hd.
    - constructor; [constructor; assumption|]. apply Forall_forall. rewrite Forall_forall in Hy. intros z Hz.
      apply elem_of_cons in Hz as [->|Hz]; [set_unfold; lia|]. specialize (Hy z Hz). lia.
    - constructor; [apply IH; set_solver|]. apply Forall_forall. rewrite Forall_forall in Hy. intros z Hz.
      assert (z ∈ x :: l) as Hz'.
      { clear -Hz. revert Hz. induction l as [|b l IH]; cbn; [auto|]. case_decide; set_solver. }
      apply elem_of_cons in Hz' as [->|Hz']; [lia|auto].
  Qed.
  Lemma sort_strict l : NoDup l -> StronglySorted lt (sort_unstable l).
  Proof.
    induction 1 as [|x l Hx Hnd IH]; [constructor|]. change (sort_unstable (x :: l)) with (insert_sorted x (sort_unstable l)).
    apply insert_sorted_lt; [assumption|]. rewrite sort_elem. assumption.
  Qed.
  Lemma first_named_inj h m n1 n2 i : first_named h m n1 i -> first_named h m n2 i -> n1 = n2.
  Proof.
    intros (a & Ha & (x & Hx & <-) & _) (b & Hb & (y & Hy & <-) & _). congruence.
  Qed.
  Lemma first_named_fun h m nm i j : first_named h m nm i -> first_named h m nm j -> i = j.
  Proof.
    intros (a & Ha & H1 & H1') (b & Hb & H2 & H2'). destruct (Nat.lt_trichotomy i j) as [Hij|[->|Hij]]; [|reflexivity|].
    - exfalso. eapply H2'; eauto.
    - exfalso. eapply H1'; eauto.
  Qed.
  Lemma indices_nodup h m names idx : NoDup names -> Forall2 (first_named h m) names idx -> NoDup idx.
  Proof.
    intros Hnd H. induction H as [|nm i names idx H1 H2 IH]; [constructor|]. apply NoDup_cons in Hnd as [Hnm Hnd].
    constructor; [|auto]. intros Hi. apply Hnm. apply elem_of_list_lookup in Hi as (k & Hk).
    destruct (Forall2_lookup_r _ _ _ _ _ H2 Hk) as (nm' & Hk' & Hf). rewrite (first_named_inj _ _ _ _ _ H1 Hf).
    eapply elem_of_list_lookup_2; eauto.
  Qed.

  (** ** C34: the whole solve, for a notion [E] of "the same number" *)
  Lemma solve_ignored_lemma {OL : OrdLaws T} (E : T -> T -> Prop) t ovf la sv h nx arm target c s :
    (forall x, E x x) -> (forall x y z, E x y -> E y z -> E x z) ->
    (forall x, E x (sadd x (smul (jacobian_multiplier sv) szero))) ->
    (forall r x y, E x y -> clamp r x = x -> clamp r y = y) ->
    chain_of h (c_nodes arm) arm -> all_live h (c_nodes arm) -> NoDup (c_movable arm) -> limits_ok h (c_movable arm) ->
    rest h (c_movable arm) -> NoDup (ignored_joint_names c) ->
    count_true (define_operational_space c) + length (ignored_joint_names c) < c_dof arm ->
    run t (solve_with_constraints ovf la sv arm target c) (quiet h nx) = Done (Ok tt) s ->
    exists h', s = quiet h' nx /\
      forall nm j a p, nm ∈ ignored_joint_names c -> first_named h (c_movable arm) nm j -> c_movable arm !! j = Some a ->
        position_at h a = Some p -> exists p', position_at h' a = Some p' /\ E p p'.
  Proof.
    intros Erefl Etrans Eadd Eclamp Hc Hl Hnd Hlim Hr Hndn Hreq Er. unfold solve_with_constraints in Er.
    destruct (run_positions t h nx arm _ Hc) as (orig & Horig & _ & Hpos). rewrite run_bind, Horig in Er. cbn [obind] in Er.
    apply run_bind_inv in Er as (re & s1 & E1 & Er).
    assert (re = Ok tt /\ s1 = s) as [-> ->].
    { destruct re as [[]|e]; cbn [is_err is_ok negb] in Er.
      - injection Er as <-. auto.
      - apply run_bind_inv in Er as ([?|e'] & s2 & _ & Er); discriminate. }
    clear Er. unfold solve_with_constraints_internal in E1. rewrite run_bind, Horig in E1. cbn [obind] in E1.
    apply run_bind_inv in E1 as (av & s1 & Eav & E1). pose proof (inert_usize_sub _ _ _ _ _ _ _ Eav) as ->.
    destruct (decide _); [discriminate|].
    destruct (run_ignored_indices t h nx arm (ignored_joint_names c)) as (ri & Hri & Hidx); [eapply movable_live; eauto|].
    rewrite run_bind, Hri in E1. cbn [obind] in E1. destruct ri as [idx|]; [|discriminate].
    pose proof (Forall2_length _ _ _ Hidx) as Hlen. pose proof (indices_nodup _ _ _ _ Hndn Hidx) as Hndi.
    set (P := fun h' => forall j a p, j ∈ idx -> c_movable arm !! j = Some a -> position_at h a = Some p ->
      exists p', position_at h' a = Some p' /\ E p p').
    apply (ik_loop_inv t ovf la sv nx arm target _ _ orig P) in E1 as (h' & -> & HP); try assumption.
    - exists h'. split; [reflexivity|]. intros nm j a p Hnm Hj Ha Hp. eapply HP; eauto.
      apply elem_of_list_lookup in Hnm as (k & Hk). destruct (Forall2_lookup_l _ _ _ _ _ Hidx Hk) as (i & Hi & Hfi).
      rewrite (first_named_fun _ _ _ _ _ Hj Hfi). eapply elem_of_list_lookup_2; eauto.
    - intros h1 h2 HP Hu j a p Hj Ha Hp. destruct (HP j a p Hj Ha Hp) as (p' & Hp' & He). exists p'.
      rewrite (unch_position h1 h2) by assumption. auto.
    - intros h1 diff h2 HP Hc1 Hl1 Hlim1 Hr1 Er j a p Hj Ha Hp. destruct (HP j a p Hj Ha Hp) as (p' & Hp' & He).
      unfold position_at in Hp'. destruct (h1 !! a) as [n1|] eqn:Hn1; [|discriminate]. injection Hp' as <-.
      eexists. split.
      + refine (one_loop_ignored t ovf la sv h1 h2 nx arm target _ _ diff Hc1 Hl1 Hnd (sort_strict _ Hndi) _ Er j a n1 _ Ha Hn1).
        * rewrite sort_length. lia.
        * apply sort_elem. assumption.
      + eapply Etrans; [exact He|]. unfold clamp_to. destruct (j_limits (n_joint n1)) as [r|] eqn:Hlr; [|apply Eadd].
        rewrite (Eclamp r (j_position (n_joint n1))); [apply Eadd|apply Eadd|].
        apply (Hr1 a n1 r); [eapply elem_of_list_lookup_2; exact Ha|assumption|assumption].
    - intros j a p Hj Ha Hp. eauto.
  Qed.

  (** ** C35 *)
  Lemma inside_rest {OL : OrdLaws T} h l : inside_limits h l -> rest h l.
  Proof.
    intros H a n r Ha Hn Hr. apply clamp_id. apply is_valid_iff. destruct (H a n Ha Hn r Hr). auto.
  Qed.
  (** the outcome when the inner solver fails without touching anything *)
  Lemma solve_early t ovf la sv h nx arm target c e :
    chain_of h (c_nodes arm) arm -> plain h (c_movable arm) -> inside_limits h (c_movable arm) ->
    run t (solve_with_constraints_internal ovf la sv arm target c) (quiet h nx) = Done (Err e) (quiet h nx) ->
    exists h', run t (solve_with_constraints ovf la sv arm target c) (quiet h nx) = Done (Err e) (quiet h' nx) /\
      heaps same_but_caches h h'.
  Proof.
    intros Hc Hp Hin E. unfold solve_with_constraints.
    destruct (run_positions t h nx arm _ Hc) as (orig & Horig & Hlen & Hpos). rewrite run_bind, Horig. cbn [obind].
    pose proof (start_admissible h arm orig Hc Hin Hpos) as Hadm.
    rewrite run_bind, E. cbn [obind is_err is_ok negb].
    destruct (restore t h nx arm orig Hc Hp Hlen) as (h2 & Hr & Hf2 & Ho2 & Hp2); [intros; eapply Hadm; eauto|].
    rewrite run_bind, Hr. cbn [obind run]. exists h2. split; [reflexivity|].
    apply unch_heaps. intros a. destruct (decide (a ∈ c_movable arm)) as [Ha|Ha]; [|apply Ho2; assumption].
    pose proof (Hf2 a) as Hb. apply elem_of_list_lookup in Ha as (i & Hi).
    destruct (positions_at h _ orig i a Hpos Hi) as (p & Hpi & Hpa0).
    pose proof (Hp2 i a p Hi Hpi) as Hpa. unfold position_at in *.
    destruct (h !! a) as [n|], (h2 !! a) as [n'|]; try discriminate. cbn in *. f_equal. apply strip_bare_pos; congruence.
  Qed.
  Lemma internal_precondition t ovf la sv h nx arm target c :
    chain_of h (c_nodes arm) arm -> length (ignored_joint_names c) <= c_dof arm ->
    c_dof arm - length (ignored_joint_names c) < count_true (define_operational_space c) ->
    run t (solve_with_constraints_internal ovf la sv arm target c) (quiet h nx) =
      Done (Err (PreconditionError (c_dof arm - length (ignored_joint_names c)) (count_true (define_operational_space c)))) (quiet h nx).
  Proof.
    intros Hc Hle Hlt. unfold solve_with_constraints_internal.
    destruct (run_positions t h nx arm _ Hc) as (orig & Horig & _ & _). rewrite run_bind, Horig. cbn [obind].
    unfold usize_sub, dof. rewrite decide_True by assumption. cbn [bind].
    rewrite decide_True by lia. rewrite Nat2N.id. reflexivity.
  Qed.
  Lemma first_unique {A} (P : A -> Prop) l1 : forall (x : A) l2 k1 y k2,
    l1 ++ x :: l2 = k1 ++ y :: k2 -> P x -> P y -> (forall z, z ∈ l1 -> ~ P z) -> (forall z, z ∈ k1 -> ~ P z) -> x = y.
  Proof.
    induction l1 as [|z l1 IH]; intros x l2 [|u k1] y k2 E Hx Hy H1 H2; injection E.
    - auto.
    - intros _ ->. exfalso. apply (H2 u); [set_solver|assumption].
    - intros _ <-. exfalso. apply (H1 z); [set_solver|assumption].
    - intros E' _. eapply IH; [exact E'| | | |]; try assumption; set_solver.
  Qed.
  Lemma internal_unknown t ovf la sv h nx arm target c l1 nm l2 :
    chain_of h (c_nodes arm) arm ->
    count_true (define_operational_space c) + length (ignored_joint_names c) <= c_dof arm ->
    ignored_joint_names c = l1 ++ nm :: l2 -> nowhere_named h (c_movable arm) nm ->
    (forall nm', nm' ∈ l1 -> ~ nowhere_named h (c_movable arm) nm') ->
    run t (solve_with_constraints_internal ovf la sv arm target c) (quiet h nx) =
      Done (Err (InvalidJointNameError nm)) (quiet h nx).
  Proof.
    intros Hc Hle En Hnm Hfirst. unfold solve_with_constraints_internal.
    destruct (run_positions t h nx arm _ Hc) as (orig & Horig & _ & _). rewrite run_bind, Horig. cbn [obind].
    unfold usize_sub, dof. rewrite decide_True by lia. cbn [bind]. rewrite decide_False by lia.
    destruct (run_ignored_indices t h nx arm (ignored_joint_names c)) as (ri & Hri & Hidx); [eapply movable_live; eauto|].
    rewrite run_bind, Hri. cbn [obind]. destruct ri as [idx|e].
    - exfalso. rewrite En in Hidx. apply Forall2_app_inv_l in Hidx as (i1 & i2 & _ & Hidx & _).
      inversion Hidx as [|? i ? i2' Hf _]; subst. destruct Hf as (a & Ha & Hn & _). apply (Hnm a); [|assumption].
      eapply elem_of_list_lookup_2; eauto.
    - destruct Hidx as (k1 & nm' & k2 & En' & -> & Hnm' & Hk). cbn [run]. do 3 f_equal.
      eapply (first_unique (nowhere_named h (c_movable arm)) k1 nm' k2 l1 nm l2); try assumption; [congruence|].
      intros z Hz Hno. destruct (Hk z Hz) as (i & a & Ha & Hna & _). apply (Hno a); [|assumption]. eapply elem_of_list_lookup_2; eauto.
  Qed.
  Lemma solve_overflow_panic t la sv h nx arm target c :
    chain_of h (c_nodes arm) arm -> c_dof arm < length (ignored_joint_names c) ->
    run t (solve_with_constraints true la sv arm target c) (quiet h nx) =
      Panicked "attempt to subtract with overflow" (quiet h nx).
  Proof.
    intros Hc Hlt. unfold solve_with_constraints, solve_with_constraints_internal.
    destruct (run_positions t h nx arm _ Hc) as (orig & Horig & _ & _). rewrite run_bind, Horig. cbn [obind].
    rewrite run_bind, run_bind, Horig. cbn [obind]. unfold usize_sub, dof. rewrite decide_False by lia. cbn [bind].
    rewrite run_panic_quiet. reflexivity.
  Qed.
  Lemma solve_wrapping_never t ovf la sv h nx arm target c s :
    chain_of h (c_nodes arm) arm -> all_live h (c_nodes arm) -> c_dof arm < length (ignored_joint_names c) ->
    run t (solve_with_constraints ovf la sv arm target c) (quiet h nx) <> Done (Ok tt) s.
  Proof.
    intros Hc Hl Hlt E. unfold solve_with_constraints in E.
    destruct (run_positions t h nx arm _ Hc) as (orig & Horig & _ & Hpos). rewrite run_bind, Horig in E. cbn [obind] in E.
    apply run_bind_inv in E as (re & s1 & E1 & E). destruct re as [[]|e]; cbn [is_err is_ok negb] in E.
    2:{ apply run_bind_inv in E as ([?|e'] & s2 & _ & E); discriminate. }
    clear E. unfold solve_with_constraints_internal in E1. rewrite run_bind, Horig in E1. cbn [obind] in E1.
    apply run_bind_inv in E1 as (av & s2 & Eav & E1). pose proof (inert_usize_sub _ _ _ _ _ _ _ Eav) as ->.
    destruct (decide _); [discriminate|].
    destruct (run_ignored_indices t h nx arm (ignored_joint_names c)) as (ri & Hri & Hidx); [eapply movable_live; eauto|].
    rewrite run_bind, Hri in E1. cbn [obind] in E1. destruct ri as [idx|]; [|discriminate]. apply Forall2_length in Hidx.
    destruct (num_max_try sv) as [|k]; cbn [ik_loop] in E1.
    - apply run_bind_inv in E1 as ([?|e] & s3 & _ & E1).
      + apply run_bind_inv in E1 as (lr & s4 & _ & E1). discriminate.
      + discriminate.
    - apply run_bind_inv in E1 as ([diff|e] & s3 & E2 & E1); [|discriminate].
      destruct (one_loop_done _ _ _ _ _ _ _ _ _ _ _ _ Hc Hl E2) as
        (h' & -> & h1 & o1 & err & J & av1 & ps & w & _ & _ & _ & HJ & _). rewrite sort_length in HJ. lia.
  Qed.
  Lemma solve_no_tries t ovf la sv h nx arm target c :
    num_max_try sv = 0 ->
    chain_of h (c_nodes arm) arm -> plain h (c_movable arm) -> inside_limits h (c_movable arm) ->
    count_true (define_operational_space c) + length (ignored_joint_names c) <= c_dof arm ->
    (forall nm, nm ∈ ignored_joint_names c -> ~ nowhere_named h (c_movable arm) nm) ->
    exists h', run t (solve_with_constraints ovf la sv arm target c) (quiet h nx) =
      Panicked "called `Option::unwrap()` on a `None` value" (quiet h' nx).
  Proof.
    intros H0 Hc Hp Hin Hle Hn. unfold solve_with_constraints, solve_with_constraints_internal.
    destruct (run_positions t h nx arm _ Hc) as (orig & Horig & Hlen & Hpos). rewrite run_bind, Horig. cbn [obind].
    rewrite run_bind, run_bind, Horig. cbn [obind]. unfold usize_sub, dof. rewrite decide_True by lia. cbn [bind].
    rewrite decide_False by lia.
    destruct (run_ignored_indices t h nx arm (ignored_joint_names c)) as (ri & Hri & Hidx); [eapply movable_live; eauto|].
    rewrite run_bind, Hri. cbn [obind]. destruct ri as [idx|e].
    - rewrite H0. cbn [ik_loop]. pose proof (start_admissible h arm orig Hc Hin Hpos) as Hadm.
      destruct (restore t h nx arm orig Hc Hp Hlen) as (h2 & Hr & _); [intros; eapply Hadm; eauto|].
      rewrite run_bind, Hr. cbn [obind expect bind]. rewrite run_panic_quiet. cbn [obind]. eauto.
    - destruct Hidx as (l1 & nm & l2 & En & _ & Hno & _). exfalso. apply (Hn nm); [rewrite En; set_solver|assumption].
  Qed.

  (** ** C36: the rows kept *)
  Lemma select_all {A} ops (l : list A) : length ops = length l ->
    select ops l = concat (zip_with (fun b x => if b : bool then [x] else []) ops l).
  Proof.
    revert l. induction ops as [|[] ops IH]; intros [|x l] E; try discriminate; cbn in *; [reflexivity| |]; rewrite IH by lia; reflexivity.
  Qed.
  Lemma run_remove_rows t ovf ops : forall i r k cols s,
    i = r + k -> Forall (fun c => length c = k + length ops) cols ->
    run t (remove_rows (T := T) ovf i r ops (Mat (k + length ops) cols)) s =
      Done (Mat (k + count_true ops) (map (fun c => take k c ++ select ops (drop k c)) cols)) s.
  Proof.
    induction ops as [|b ops IH]; intros i r k cols s Ei Hc; cbn [remove_rows].
    - change (count_true []) with 0. cbn [run length]. do 2 f_equal. rewrite <- (map_id cols) at 1. apply map_ext_in. intros c Hin.
      rewrite Forall_forall in Hc. specialize (Hc c (proj2 (elem_of_list_In _ _) Hin)). cbn in Hc.
      rewrite firstn_all2, skipn_all2 by lia. destruct c; cbn; [|rewrite app_nil_r]; reflexivity.
    - destruct b.
      + cbn [length]. rewrite Nat.add_succ_r, <- Nat.add_succ_l. rewrite (IH (S i) r (S k)); [|lia|].
        * change (count_true (true :: ops)) with (S (count_true ops)). do 2 f_equal; [lia|]. apply map_ext_in. intros c Hin.
          rewrite Forall_forall in Hc. specialize (Hc c (proj2 (elem_of_list_In _ _) Hin)). cbn in Hc.
          destruct (lookup_lt_is_Some_2 c k) as [x Hx]; [lia|].
          rewrite (take_S_r c k x Hx), <- app_assoc. f_equal. rewrite (drop_S c x k Hx). reflexivity.
        * eapply Forall_impl; [exact Hc|]. cbn. intros c ?. lia.
      + unfold usize_sub. rewrite decide_True by lia. cbn [bind]. replace (i - r) with k by lia. cbn [m_rows m_cols].
        rewrite decide_True by (cbn [length]; lia). rewrite Nat2N.id.
        replace (k + length (false :: ops) - 1) with (k + length ops) by (cbn; lia).
        rewrite (IH (S i) (S r) k); [|lia|].
        * change (count_true (false :: ops)) with (count_true ops). do 2 f_equal. rewrite map_map. apply map_ext_in. intros c Hin.
          rewrite Forall_forall in Hc. specialize (Hc c (proj2 (elem_of_list_In _ _) Hin)). cbn in Hc.
          destruct (lookup_lt_is_Some_2 c k) as [x Hx]; [lia|].
          rewrite take_app_alt by (rewrite take_length; lia). rewrite drop_app_alt by (rewrite take_length; lia).
          f_equal. rewrite (drop_S c x k Hx). reflexivity.
        * rewrite Forall_map. eapply Forall_impl; [exact Hc|]. cbn. intros c ?. rewrite app_length, take_length, drop_length. lia.
  Qed.

  (** ** C38 *)
  Lemma nullspace_rows_spec : forall (ref w pos : list T), length ref = length w ->
    (length ref <= length pos ->
      exists v, nullspace_rows ref w pos = Some v /\ length v = length ref /\
        forall i r x p, ref !! i = Some r -> w !! i = Some x -> pos !! i = Some p -> v !! i = Some (smul x (ssub p r))) /\
    (length pos < length ref -> nullspace_rows ref w pos = None).
  Proof.
    induction ref as [|r ref IH]; intros [|x w] pos E; try discriminate; cbn [nullspace_rows].
    - split; [|cbn; lia]. intros _. exists []. split; [reflexivity|]. split; [reflexivity|]. intros i r x p Hr. discriminate.
    - injection E as E. destruct pos as [|p pos].
      + split; [cbn; lia|reflexivity].
      + destruct (IH w pos E) as [H1 H2]. split.
        * intros Hle. destruct H1 as (v & Hv & Hlen & Hi); [cbn in Hle; lia|]. rewrite Hv. eexists. split; [reflexivity|].
          split; [cbn; lia|]. intros [|i] r' x' p' Hr Hx Hp; cbn in *; [congruence|]. eapply Hi; eauto.
        * intros Hlt. rewrite H2 by (cbn in Hlt; lia). reflexivity.
  Qed.
End IkProofs2.

(** ** "the same number" over the reals and for floats *)
Lemma real_add_zero (m x : R) : sadd x (smul m szero) = x.
Proof. cbn. ring. Qed.
(** equal, or zeros of either sign *)
Definition same_number (x y : spec_float) : Prop :=
  x = y \/ exists s s', x = S754_zero s /\ y = S754_zero s'.
Lemma same_number_trans x y z : same_number x y -> same_number y z -> same_number x z.
Proof.
  intros [H1|(s & s' & H1 & H1')] [H2|(u & u' & H2 & H2')]; subst; unfold same_number; eauto.
Qed.
Definition finite (x : spec_float) : Prop :=
  match x with S754_zero _ | S754_finite _ _ _ => True | _ => False end.
Lemma float_add_zero prec emax L (m x : spec_float) : finite m ->
  same_number x (sadd (Scalar := FScalar prec emax L) x
    (smul (Scalar := FScalar prec emax L) m (szero (Scalar := FScalar prec emax L)))).
Proof.
  intros Hm. destruct m as [sm| | |sm mm em]; try destruct Hm; cbn.
  - destruct x as [sx|sx| |sx mx ex]; cbn; try (left; reflexivity). destruct sx, sm; cbn; right; eauto.
  - destruct x as [sx|sx| |sx mx ex]; cbn; try (left; reflexivity). destruct sx, sm; cbn; right; eauto.
Qed.
Lemma float_clamp_same prec emax L (r : range spec_float) x y :
  same_number x y -> clamp (Sc := FScalar prec emax L) r x = x -> clamp (Sc := FScalar prec emax L) r y = y.
Proof.
  intros [->|(s & s' & -> & ->)] H; [assumption|]. destruct r as [mn mx]. unfold clamp, sgt in *. cbn in *.
  unfold SFltb in *. destruct mn as [|[]| |[]], mx as [|[]| |[]]; cbn in *; congruence.
Qed.
