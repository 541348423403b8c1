(** * C58, C59: how far an arm reaches, and how its pose depends on base and positions *)
From Coq Require Import Reals Lra Psatz String.
From stdpp Require Import gmap.
From Verif Require Import Scalar ScalarR Geometry Joint Link Prog NodeM ChainM IkM RunLemmas SpecJoint SpecNode SpecGraph
  SpecChain ChainProofs SpecFK FKProofs SpecIk IkProofs IkProofs2 SpecGeom RGeom GeomProofs ComProofs SpecStep StepProofs JacProofs SpecReach ReachProofs.
Local Open Scope R_scope.

(** C58: the end of the arm is never farther away than the joints' offsets and
    extensions add up to. *)
Theorem C58_reach (t : nat) (h : gmap nat (node R)) nx c js w s :
  joints_of h (c_nodes c) js -> Forall unit_joint js ->
  run t (end_transform c) (quiet h nx) = Done w s -> len (tr w) <= total (map span js).
Proof.
  intros Hj Hu. rewrite (run_end_joints t h nx c js Hj). intros E. injection E as <- _.
  rewrite tip_tr by exact Hu. apply tip_reach, Hu.
Qed.
Print Assumptions C58_reach.
(** C58: nor closer than its longest offset exceeds the rest. *)
Theorem C58_hole (t : nat) (h : gmap nat (node R)) nx c js j w s :
  joints_of h (c_nodes c) js -> Forall unit_joint js -> j ∈ js ->
  run t (end_transform c) (quiet h nx) = Done w s ->
  2 * len (tr (j_origin j)) - total (map span js) <= len (tr w).
Proof.
  intros Hj Hu Hin. rewrite (run_end_joints t h nx c js Hj). intros E. injection E as <- _.
  rewrite tip_tr by exact Hu. apply elem_of_list_split in Hin as (js1 & js2 & ->). apply tip_hole, Hu.
Qed.
Print Assumptions C58_hole.
(** C58: a target the solver claims to have reached is in reach, whatever the linear
    algebra does and however often it iterates. *)
Theorem C58_solved_in_reach (t : nat) ovf (la : linalg R) (sv : solver R) (h : gmap nat (node R)) nx arm target c js es s :
  chain_of h (c_nodes arm) arm -> joints_of h (c_nodes arm) js -> Forall unit_joint js ->
  limits_ok h (c_movable arm) -> inside_limits h (c_movable arm) -> Forall2 max_span js es ->
  position_x c = true -> position_y c = true -> position_z c = true ->
  run t (solve_with_constraints ovf la sv arm target c) (quiet h nx) = Done (Ok tt) s ->
  len (tr target) < total es + allowable_target_distance sv /\
  forall j, j ∈ js -> 2 * len (tr (j_origin j)) - total es - allowable_target_distance sv < len (tr target).
Proof.
  intros Hc Hj Hu Hlim Hin Hes Px Py Pz Hr. pose proof (joints_live _ _ _ Hj) as Hlive.
  apply solve_ok_lemma in Hr as (h' & w & _ & Hm & Hrest & Hw & [Hd _]); try assumption; [|left; apply inside_rest; assumption].
  assert (Hlive' : all_live h' (c_nodes arm)).
  { intros a Ha. destruct (Hlive a Ha) as [n Hn]. destruct Hm as [Hm _]. specialize (Hm a). rewrite Hn in Hm.
    destruct (h' !! a); [eauto|destruct Hm]. }
  destruct (joints_exist h' (c_nodes arm) Hlive') as [js' Hj'].
  destruct (max_spans h h' arm js es js' Hc Hj Hes Hlim Hm Hrest Hj') as [Ho Ht].
  pose proof (unit_joints_other _ _ Hu Ho) as Hu'.
  assert (Hd' : len (minus (tr target) (tr w)) < allowable_target_distance sv).
  { unfold position_error in Hd. rewrite Px, Py, Pz in Hd. apply Rltb_spec in Hd. exact Hd. }
  split.
  - apply target_near in Hd'. pose proof (C58_reach t h' nx arm js' w _ Hj' Hu' Hw). lra.
  - intros j Hjin. rewrite len_minus_sym in Hd'. apply target_near in Hd'.
    apply elem_of_list_lookup in Hjin as [i Hi].
    destruct (Forall2_lookup_l _ _ _ _ _ Ho Hi) as (j' & Hi' & _ & Eo).
    pose proof (C58_hole t h' nx arm js' j' w _ Hj' Hu' ltac:(eapply elem_of_list_lookup_2; eauto) Hw) as H. rewrite Eo in H. lra.
Qed.
Print Assumptions C58_solved_in_reach.
(** ... so for a target out of reach the solver returns an error or nothing. *)
Theorem C58_out_of_reach (t : nat) ovf (la : linalg R) (sv : solver R) (h : gmap nat (node R)) nx arm target c js es r s :
  chain_of h (c_nodes arm) arm -> joints_of h (c_nodes arm) js -> Forall unit_joint js ->
  limits_ok h (c_movable arm) -> inside_limits h (c_movable arm) -> Forall2 max_span js es ->
  total es + allowable_target_distance sv <= len (tr target) ->
  run t (solve ovf la sv arm target) (quiet h nx) = Done r s \/
  (position_x c = true /\ position_y c = true /\ position_z c = true /\
   run t (solve_with_constraints ovf la sv arm target c) (quiet h nx) = Done r s) ->
  exists e, r = Err e.
Proof.
  intros Hc Hj Hu Hlim Hin Hes Hfar Hr. destruct r as [[]|e]; [|eauto]. exfalso.
  assert (exists c', position_x c' = true /\ position_y c' = true /\ position_z c' = true /\
    run t (solve_with_constraints ovf la sv arm target c') (quiet h nx) = Done (Ok tt) s) as (c' & Hx & Hy & Hz & Hr').
  { destruct Hr as [Hr|Hr]; [exists default_constraints; repeat split; exact Hr|eauto]. }
  destruct (C58_solved_in_reach t ovf la sv h nx arm target c' js es s) as [H _]; try assumption. lra.
Qed.
Print Assumptions C58_out_of_reach.
(** C58: the bound is reached by an arm whose offsets point the same way. *)
Theorem C58_tight (t : nat) (h : gmap nat (node R)) nx c js (d : vec3 R) :
  joints_of h (c_nodes c) js -> unit_axis d ->
  Forall (fun j => rt (j_origin j) = q1 /\ j_position j = 0 /\ exists s, 0 <= s /\ tr (j_origin j) = times s d) js ->
  Forall unit_joint js ->
  exists w, run t (end_transform c) (quiet h nx) = Done w (quiet h nx) /\ len (tr w) = total (map span js).
Proof.
  intros Hj Hd Hs Hu. exists (product iso1 (map local_transform js)). split; [apply run_end_joints, Hj|].
  rewrite tip_tr by exact Hu. clear Hj.
  assert (H0 : 0 <= total (map span js) /\ tip js = times (total (map span js)) d).
  { induction Hs as [|j js (Hq & Hp & x & Hx & Ht) Hs IH]; [split; [cbn; lra|destruct d; cbn; gv; ring]|].
    apply Forall_cons in Hu as [Hju Hu]. destruct (IH Hu) as [H1 H2]. clear IH.
    cbn [tip map]. rewrite total_cons, H2.
    assert (Hsp : span j = x).
    { unfold span, extension. rewrite Ht, len_times, (len_unit d Hd), Rabs_pos_eq by exact Hx.
      rewrite Hp, Rabs_R0. destruct (j_type j); lra. }
    rewrite Hsp. split; [lra|].
    assert (E : forall y, move (local_transform j) y = move (j_origin j) y).
    { intros y. destruct (j_type j) as [|a|a] eqn:E.
      - rewrite local_fixed by exact E. reflexivity.
      - rewrite (local_rotational _ _ _ Hju E), Hp, rotate_0. reflexivity.
      - rewrite (proj2 (local_linear _ _ E)), Hp. f_equal. destruct y, a. gv; ring. }
    rewrite E. unfold move. rewrite Hq, turn_q1, Ht. destruct d. gv; ring. }
  destruct H0 as [H1 ->]. rewrite len_times, (len_unit d Hd), Rabs_pos_eq by exact H1. ring.
Qed.
Print Assumptions C58_tight.

(** C59: moving the origin of the root by a rigid motion [M] moves every node's
    world transform by [M]; nothing else about the tree matters. *)
Theorem C59_base_moves_all (t : nat) (h : gmap nat (node R)) nx c r n M :
  all_live h (c_nodes c) -> parents_first h (c_nodes c) ->
  (forall a m, a ∈ c_nodes c -> h !! a = Some m -> unit_joint (n_joint m)) ->
  head (c_nodes c) = Some r -> h !! r = Some n -> (forall a, a ∈ c_nodes c -> no_parent h a -> a = r) -> proper M ->
  exists ws ws' s s', run t (update_transforms c) (quiet h nx) = Done ws s /\
    run t (chain_set_origin c (iso_mul M (j_origin (n_joint n))) ;;; update_transforms c) (quiet h nx) = Done ws' s' /\
    Forall2 (fun w w' => forall x, move w' x = move M (move w x)) ws ws'.
Proof.
  intros Hl Hp Hu Hh Hr Hroot HM. set (h2 := <[r := shifted n M]> h).
  destruct (update_transforms_proper_lemma t h nx c Hl Hp Hu) as (ws & h1 & Hr1 & Hws & Hpr).
  pose proof (shift_parents h r n M Hr) as Hsp. fold h2 in Hsp.
  assert (Hl2 : all_live h2 (c_nodes c)) by (intros a Ha; eapply same_parents_live; [exact Hsp|auto]).
  assert (Hp2 : parents_first h2 (c_nodes c)) by (eapply same_parents_pf; [exact Hsp|exact Hp]).
  destruct (update_transforms_lemma t h2 nx c Hl2 Hp2) as (ws' & h3 & Hr2 & Hws' & _).
  exists ws, ws', (quiet h1 nx), (quiet h3 nx). split; [exact Hr1|]. split.
  - rewrite run_bind. unfold chain_set_origin, first_node, expect. rewrite Hh. rewrite run_bind. cbn [run obind].
    unfold node_set_origin. unfold quiet at 1. rewrite (run_modify t r _ h nx ∅ n) by (auto using lookup_empty). cbn [obind]. exact Hr2.
  - apply Forall2_same_length_lookup. apply Forall2_same_length_lookup in Hws as [L1 Hws], Hws' as [L2 Hws'].
    split; [lia|]. intros i w w' Hi Hi' x.
    destruct (lookup_lt_is_Some_2 (c_nodes c) i) as [a Ha]; [apply lookup_lt_Some in Hi; lia|].
    assert (Hin : a ∈ c_nodes c) by (eapply elem_of_list_lookup_2; eauto).
    assert (Hs : world h2 a (iso_mul M w)).
    { apply (shift_world h r n M Hr HM); [| |eauto].
      - intros b Hb (l & Hpl & Hbl). apply Hroot; [|exact Hb]. exact (closed_path h _ Hp a l Hpl Hin b Hbl).
      - intros l b m Hpl Hbl Hm. eapply Hu; [|exact Hm]. exact (closed_path h _ Hp a l Hpl Hin b Hbl). }
    rewrite (world_fun h2 a _ _ (Hws' i a w' Ha Hi') Hs). apply iso_mul_move; [exact HM|].
    rewrite Forall_lookup in Hpr. apply (Hpr i w Hi).
Qed.
Print Assumptions C59_base_moves_all.
(** C59: and the end of the arm likewise. *)
Theorem C59_base_moves_end (t : nat) (h : gmap nat (node R)) nx c r l n M :
  c_nodes c = r :: l -> r ∉ l -> all_live h (r :: l) ->
  (forall a m, a ∈ r :: l -> h !! a = Some m -> unit_joint (n_joint m)) -> h !! r = Some n -> proper M ->
  exists w w' s', run t (end_transform c) (quiet h nx) = Done w (quiet h nx) /\
    run t (chain_set_origin c (iso_mul M (j_origin (n_joint n))) ;;; end_transform c) (quiet h nx) = Done w' s' /\
    forall x, move w' x = move M (move w x).
Proof.
  intros Hc Hrl Hl Hu Hr HM. destruct (joints_exist h (r :: l) Hl) as [js Hjs].
  assert (Huj : Forall unit_joint js).
  { clear -Hjs Hu. induction Hjs as [|a j l' js (m & Hm & ->) H IH]; constructor.
    - eapply Hu; [|exact Hm]. set_solver.
    - apply IH. intros b m' Hb. apply Hu. set_solver. }
  apply Forall2_cons_inv_l in Hjs as (j & js' & (m & Hm & ->) & Hjs & ->). assert (m = n) as -> by congruence.
  set (h2 := <[r := shifted n M]> h).
  assert (Hjs2 : joints_of h2 (c_nodes c) (n_joint (shifted n M) :: js')).
  { rewrite Hc. constructor; [exists (shifted n M); split; [apply lookup_insert|reflexivity]|].
    clear -Hjs Hrl. induction Hjs as [|a j l' js (m & Hm & ->) H IH]; constructor.
    - exists m. unfold h2. rewrite lookup_insert_ne by set_solver. auto.
    - apply IH. set_solver. }
  assert (Hjs1 : joints_of h (c_nodes c) (n_joint n :: js')) by (rewrite Hc; constructor; [eauto|exact Hjs]).
  apply Forall_cons in Huj as [Hun Huj].
  assert (Hun2 : unit_joint (n_joint (shifted n M))).
  { destruct Hun as [H1 H2]. split; [exact H1|]. cbn. apply proper_mul; assumption. }
  eexists _, _, _. split; [apply run_end_joints, Hjs1|]. split.
  - rewrite run_bind. unfold chain_set_origin, first_node, expect. rewrite Hc. cbn [head]. rewrite run_bind. cbn [run obind].
    unfold node_set_origin. unfold quiet at 1. rewrite (run_modify t r _ h nx ∅ n) by (auto using lookup_empty). cbn [obind].
    apply (run_end_joints t h2 nx c _ Hjs2).
  - intros x. rewrite !product_move by (try apply proper_1; constructor; assumption). rewrite !move_1. cbn [fold_right].
    change (local_transform (n_joint (shifted n M))) with (iso_mul (iso_mul M (j_origin (n_joint n))) (joint_transform (j_type (n_joint n)) (j_position (n_joint n)))).
    change (local_transform (n_joint n)) with (iso_mul (j_origin (n_joint n)) (joint_transform (j_type (n_joint n)) (j_position (n_joint n)))).
    assert (Hjt : proper (joint_transform (j_type (n_joint n)) (j_position (n_joint n)))).
    { destruct Hun as [Ht _]. unfold joint_transform. destruct (j_type (n_joint n)); [apply proper_1|apply (unit_axis_angle _ _ Ht)|apply proper_1]. }
    rewrite <- iso_mul_assoc by (try exact HM; apply Hun).
    apply iso_mul_move; [exact HM|]. apply proper_mul; [apply Hun|exact Hjt].
Qed.
Print Assumptions C59_base_moves_end.
(** C59: between two settings of the joints the end moves at most by the sum of the
    changes, each weighted with its lever, and no direction turns by more than the
    sum of the angles. *)
Theorem C59_small_moves (t : nat) (h h' : gmap nat (node R)) nx c js js' w w' s s' :
  joints_of h (c_nodes c) js -> joints_of h' (c_nodes c) js' -> Forall2 at_other_position js js' -> Forall unit_joint js ->
  run t (end_transform c) (quiet h nx) = Done w s -> run t (end_transform c) (quiet h' nx) = Done w' s' ->
  dist (tr w') (tr w) <= sweep js js' /\
  forall v, dist (turn (rt w') v) (turn (rt w) v) <= swing js js' * len v.
Proof.
  intros Hj Hj' Ho Hu. rewrite (run_end_joints t h nx c js Hj), (run_end_joints t h' nx c js' Hj').
  intros E E'. injection E as <- _. injection E' as <- _. pose proof (unit_joints_other _ _ Hu Ho) as Hu'.
  unfold dist. split.
  - rewrite !tip_tr by assumption. apply tip_lip; assumption.
  - intros v. rewrite !facing_rt by assumption. apply facing_lip; assumption.
Qed.
Print Assumptions C59_small_moves.

(** *** concrete arms *)
(** a solver which proposes not to move succeeds on an arm that is at the target *)
Lemma stays (t : nat) ovf (la : linalg R) (sv : solver R) (h : gmap nat (node R)) nx arm (c : constraints) w k :
  chain_of h (c_nodes arm) arm -> all_live h (c_nodes arm) -> parents_first h (c_nodes arm) -> NoDup (c_movable arm) ->
  rest h (c_movable arm) -> ignored_joint_names c = [] -> count_true (define_operational_space c) = c_dof arm ->
  run t (end_transform arm) (quiet h nx) = Done w (quiet h nx) ->
  (forall J b, lu_solve la J b = Some (repeat 0 (c_dof arm))) -> num_max_try sv = S k -> on_target sv c w w ->
  exists h', run t (solve_with_constraints ovf la sv arm w c) (quiet h nx) = Done (Ok tt) (quiet h' nx).
Proof.
  intros Hc Hl Hp Hnd Hr Hign Hcnt Hw Hla Hk Hon.
  destruct (joints_exist _ _ Hl) as [js Hjs].
  assert (Hts : Forall2 (local_at h) (c_nodes arm) (map local_transform js)).
  { clear -Hjs. induction Hjs as [|a j l js (n & Hn & ->) H IH]; constructor; [exists n; auto|exact IH]. }
  destruct (run_jacobian t h nx arm _ (parents_first_order _ _ Hl Hp) Hc Hts) as (cols & h1 & HJ & _ & _).
  pose proof (step_lu t ovf la sv h nx arm w (define_operational_space c) [] cols h1 w Hc Hl Hnd eq_refl
    (Sorted.SSorted_nil _) (Forall_nil_2 _) Hw HJ (repeat 0 (c_dof arm))) as Hs.
  destruct Hs as (h' & w' & Hrun & Hw' & Hf & Ho & Hpos); [rewrite Hcnt; cbn [length]; lia|apply Hla|].
  pose proof (only_moved_intro _ _ _ Hf Ho) as Hom.
  assert (Hl' : all_live h' (c_nodes arm)).
  { intros a Ha. destruct (Hl a Ha) as [n Hn]. destruct Hom as [Hm _]. specialize (Hm a). rewrite Hn in Hm.
    destruct (h' !! a); [eauto|destruct Hm]. }
  destruct (joints_exist _ _ Hl') as [js' Hjs'].
  assert (Hsame : map local_transform js' = map local_transform js).
  { assert (Hall : forall a n n', a ∈ c_nodes arm -> h !! a = Some n -> h' !! a = Some n' ->
      local_transform (n_joint n') = local_transform (n_joint n)).
    { intros a n n' Ha Hn Hn'. pose proof (proj1 Hom a) as H1. rewrite Hn, Hn' in H1. destruct H1 as (_ & Et & _ & _ & Eo & _).
      assert (Ep : j_position (n_joint n') = j_position (n_joint n)).
      { destruct (decide (a ∈ c_movable arm)) as [Hin|Hout].
        - apply elem_of_list_lookup in Hin as [i Hi]. specialize (Hpos i a n Hi Hn). unfold position_at in Hpos. rewrite Hn' in Hpos.
          apply Some_inj in Hpos. rewrite Hpos. assert (repeat 0 (c_dof arm) !! i = Some 0) as E.
          { apply lookup_lt_Some in Hi. destruct Hc as (_ & Em & Ed). rewrite Em in Hi. rewrite <- Ed in Hi.
            clear -Hi. revert i Hi. induction (c_dof arm) as [|d IH]; intros i Hi; [lia|]. destruct i; [reflexivity|]. apply IH. lia. }
          rewrite E. cbn [sadd smul RScalar]. replace (j_position (n_joint n) + jacobian_multiplier sv * 0) with (j_position (n_joint n)) by ring.
          unfold limited. destruct (j_limits (n_joint n)) as [r|] eqn:El; [|reflexivity].
          eapply Hr; [eapply elem_of_list_lookup_2; exact Hi|exact Hn|exact El].
        - pose proof (proj2 Hom a n n' Hout Hn Hn') as (_ & _ & E & _). exact E. }
      unfold local_transform, joint_transform. rewrite Et, Eo, Ep. reflexivity. }
    clear -Hjs Hjs' Hall. revert js' Hjs'. induction Hjs as [|a j l js (n & Hn & ->) H IH]; intros js' Hjs'.
    - apply Forall2_nil_inv_l in Hjs' as ->. reflexivity.
    - apply Forall2_cons_inv_l in Hjs' as (j' & js2 & (n' & Hn' & ->) & Hjs' & ->). cbn. f_equal.
      + eapply Hall; [|exact Hn|exact Hn']. set_solver.
      + apply IH; [|exact Hjs']. intros b m m' Hb. apply Hall. set_solver. }
  assert (w' = w) as ->.
  { rewrite (run_end_joints t h' nx arm _ Hjs') in Hw'. rewrite (run_end_joints t h nx arm _ Hjs) in Hw. rewrite Hsame in Hw'. congruence. }
  unfold solve_with_constraints. destruct (run_positions t h nx arm _ Hc) as (orig & Horig & _ & _). rewrite run_bind, Horig. cbn [obind].
  assert (Hi : exists h', run t (solve_with_constraints_internal ovf la sv arm w c) (quiet h nx) = Done (Ok tt) (quiet h' nx)).
  { unfold solve_with_constraints_internal. rewrite run_bind, Horig. cbn [obind]. rewrite Hign. cbn [length].
    rewrite run_bind. unfold dof. rewrite run_usize_sub by lia. cbn [obind]. rewrite decide_False by lia.
    cbn [ignored_indices run]. rewrite run_bind. cbn [run obind]. rewrite Hk. cbn [ik_loop].
    rewrite run_bind. change (sort_unstable []) with (@nil nat). rewrite Hrun. cbn [obind].
    assert (Hre : reached sv (target_diff_to_len_rot_diff (flagged (define_operational_space c) (calc_pose_diff w w)) (define_operational_space c)) = true).
    { apply reached_on_target. exact Hon. }
    rewrite Hre. assert (Hc' : chain_of h' (c_nodes arm) arm) by (eapply frozen_chain; eauto).
    destruct (run_positions t h' nx arm _ Hc') as (ps & Hps & _ & _). rewrite run_bind, Hps. cbn [obind].
    rewrite run_bind, run_clamped by (eapply movable_live; eauto). cbn [obind run]. eauto. }
  destruct Hi as [h2 Hi]. exists h2. rewrite run_bind, Hi. reflexivity.
Qed.

(** a crane: a mast of height 1 turning about z, a boom hinged about y two metres
    out, and a trolley on it, one metre out, which can run out by up to another metre *)
Definition mast : joint R := Joint "mast" (Rotational (V3 0 0 1)) 0 0 None (Iso (V3 0 0 1) q1) None None.
Definition boom (p : R) : joint R := Joint "boom" (Rotational (V3 0 1 0)) p 0 None (Iso (V3 2 0 0) q1) None None.
Definition trolley (p : R) : joint R := Joint "trolley" (Linear (V3 1 0 0)) p 0 (Some (Range 0 1)) (Iso (V3 1 0 0) q1) None None.
Definition node_of (j : joint R) (p : option nat) (ch : list nat) : node R := Node p ch j None [] None None.
Definition crane (p q : R) : gmap nat (node R) :=
  <[0%nat := node_of mast None [1%nat]]> (<[1%nat := node_of (boom p) (Some 0%nat) [2%nat]]>
    (<[2%nat := node_of (trolley q) (Some 1%nat) []]> ∅)).
Definition crane_chain : chain := Chain [0%nat; 1%nat; 2%nat] [0%nat; 1%nat; 2%nat] 3.
Definition parts (p q : R) : list (joint R) := [mast; boom p; trolley q].
Lemma crane_joints p q : joints_of (crane p q) (c_nodes crane_chain) (parts p q) /\ Forall unit_joint (parts p q).
Proof.
  split; [repeat (constructor; [eexists; split; reflexivity|]); constructor|].
  repeat constructor; cbn; try (unfold unit_axis; cbn; ring); exact proper_1.
Qed.
Lemma crane_chain_of p q : chain_of (crane p q) (c_nodes crane_chain) crane_chain.
Proof. split; [reflexivity|]. split; reflexivity. Qed.
Lemma crane_node p q a n : crane p q !! a = Some n ->
  (a = 0%nat /\ n = node_of mast None [1%nat]) \/ (a = 1%nat /\ n = node_of (boom p) (Some 0%nat) [2%nat]) \/
  (a = 2%nat /\ n = node_of (trolley q) (Some 1%nat) []).
Proof.
  unfold crane. intros H. apply lookup_insert_Some in H as [[<- <-]|[_ H]]; [auto|].
  apply lookup_insert_Some in H as [[<- <-]|[_ H]]; [auto|]. apply lookup_insert_Some in H as [[<- <-]|[_ H]]; [auto|].
  rewrite lookup_empty in H. discriminate.
Qed.
Lemma crane_limits p q : 0 <= q <= 1 ->
  limits_ok (crane p q) (c_movable crane_chain) /\ inside_limits (crane p q) (c_movable crane_chain).
Proof.
  intros Hq. split; intros a n _ Hn; apply crane_node in Hn as [[_ ->] | [[_ ->] | [_ ->]]]; intros r Hr; cbn in Hr; try discriminate;
    injection Hr as <-; cbn.
  - apply Rleb_spec. lra.
  - split; apply Rleb_spec; lra.
Qed.
Lemma len_along x : 0 <= x -> len (V3 x 0 0) = x /\ len (V3 0 0 x) = x.
Proof.
  intros Hx. unfold len, inner. cbn [vx vy vz]. replace (0 * 0 + 0 * 0 + x * x) with (x * x) by ring.
  replace (x * x + 0 * 0 + 0 * 0) with (x * x) by ring. split; apply sqrt_square, Hx.
Qed.
Lemma crane_spans p q : Forall2 max_span (parts p q) [1; 2; 2].
Proof.
  pose proof len_along as Hl.
  repeat (constructor; [unfold max_span; cbn|]); [| | |constructor].
  - symmetry. apply Hl. lra.
  - symmetry. apply Hl. lra.
  - eexists. split; [reflexivity|]. cbn. rewrite (proj1 (Hl 1 ltac:(lra))). rewrite Rabs_R0, Rabs_R1. unfold Rmax. destruct Rle_dec; lra.
Qed.

(** with the boom level and the trolley half out it is at (3.5, 0, 1), and a solver
    with a tolerance of 1 mm that stays there succeeds *)
Definition at_ (x y z : R) : iso R := Iso (V3 x y z) q1.
Definition points : constraints := Constraints true true true false false false [].
Definition lazy : linalg R := Linalg (fun _ _ => Some [0; 0; 0]) (fun _ _ => None) (fun _ => None).
Definition millimetre : solver R := Solver (/ 1000) (/ 1000) 1 10 None.
Lemma crane_end p t nx : run t (end_transform crane_chain) (quiet (crane 0 p) nx) = Done (at_ (3 + p) 0 1) (quiet (crane 0 p) nx).
Proof.
  rewrite (run_end_joints t _ nx crane_chain _ (proj1 (crane_joints 0 p))). f_equal.
  unfold parts, product. cbn [map foldl]. unfold local_transform, mast, boom, trolley. cbn [j_type j_origin j_position joint_transform].
  unfold qaxis_angle. cbn [sdiv ssin scos szero sone stwo sadd RScalar]. replace (0 / (1 + 1)) with 0 by field. rewrite sin_0, cos_0.
  unfold at_. apply Iso_eq; [gv; try ring|gq; try ring].
Qed.
Example C58_case_solved (t nx : nat) ovf :
  (exists h', run t (solve_with_constraints ovf lazy millimetre crane_chain (at_ (7 / 2) 0 1) points) (quiet (crane 0 (/ 2)) nx) =
    Done (Ok tt) (quiet h' nx)) /\
  total [1; 2; 2] = 5 /\ len (tr (at_ (7 / 2) 0 1)) < 5 + / 1000.
Proof.
  assert (Hlen : len (tr (at_ (7 / 2) 0 1)) < 4).
  { unfold len. rewrite <- (sqrt_square 4) by lra. apply sqrt_lt_1_alt. unfold inner, at_. cbn. lra. }
  split; [|split; [cbn; ring|lra]].
  destruct (crane_limits 0 (/ 2) ltac:(lra)) as [_ Hin].
  replace (7 / 2) with (3 + / 2) by field.
  apply (stays t ovf lazy millimetre (crane 0 (/ 2)) nx crane_chain points (at_ (3 + / 2) 0 1) 9).
  - apply crane_chain_of.
  - eapply joints_live, crane_joints.
  - intros l1 a l2 b E [(n & Hn & Hp) _].
    destruct l1 as [|x [|y [|z l1]]]; cbn in E; [| | |destruct l1; discriminate]; injection E; intros; subst;
      apply crane_node in Hn as [[? ->] | [[? ->] | [? ->]]]; try discriminate; cbn in Hp; injection Hp as <-; set_solver.
  - cbn. repeat constructor; set_solver.
  - apply inside_rest, Hin.
  - reflexivity.
  - reflexivity.
  - apply crane_end.
  - reflexivity.
  - reflexivity.
  - split; apply Rltb_spec; cbn [allowable_target_distance allowable_target_angle millimetre]; rewrite vnorm_len.
    + assert (position_error points (at_ (3 + / 2) 0 1) (at_ (3 + / 2) 0 1) = V3 0 0 0) as ->
        by (unfold position_error, points, at_, keep; cbn [position_x position_y position_z tr vx vy vz]; gv; ring).
      rewrite len_0. lra.
    + change (len (V3 0 0 0) < / 1000). rewrite len_0. lra.
Qed.
(** the solver cannot succeed for (9, 0, 1) *)
Example C58_case_far (t nx : nat) ovf (la : linalg R) r s :
  run t (solve_with_constraints ovf la millimetre crane_chain (at_ 9 0 1) points) (quiet (crane 0 (/ 2)) nx) = Done r s ->
  exists e, r = Err e.
Proof.
  intros H. destruct (crane_limits 0 (/ 2) ltac:(lra)) as [H1 H2].
  apply (C58_out_of_reach t ovf la millimetre (crane 0 (/ 2)) nx crane_chain (at_ 9 0 1) points (parts 0 (/ 2)) [1; 2; 2] r s);
    try assumption; try apply crane_joints; [apply crane_chain_of|apply crane_spans| |right; repeat split; exact H].
  cbn. apply Rle_trans with 9; [lra|]. replace 9 with (R_sqrt.sqrt (9 * 9)) at 1 by (apply sqrt_square; lra). apply sqrt_le_1_alt. unfold inner. cbn. lra.
Qed.
(** with the boom folded back over the mast, whatever the run of the hook *)
Example C58_case_reach : forall t nx w s, run t (end_transform crane_chain) (quiet (crane PI (/ 4)) nx) = Done w s ->
  len (tr w) <= 1 + (2 + (1 + / 4)).
Proof.
  intros t nx w s H. destruct (crane_joints PI (/ 4)) as [Hj Hu].
  pose proof (C58_reach t _ nx crane_chain _ w s Hj Hu H) as Hb.
  pose proof len_along as Hl.
  unfold parts in Hb. cbn [map] in Hb. rewrite !total_cons in Hb. unfold span, extension in Hb. cbn in Hb.
  rewrite (proj1 (Hl 1 ltac:(lra))), (proj1 (Hl 2 ltac:(lra))), (proj2 (Hl 1 ltac:(lra))), Rabs_pos_eq in Hb by lra. lra.
Qed.
(** an upper arm of length 3 with a fore arm of length 1: the hand keeps 2 away from
    the shoulder, and stretched out it is 4 away *)
Definition link_ (nm : string) (x p : R) : joint R := Joint nm (Rotational (V3 0 0 1)) p 0 None (Iso (V3 x 0 0) q1) None None.
Definition limb (p : R) : gmap nat (node R) :=
  <[0%nat := node_of (link_ "shoulder" 0 p) None [1%nat]]> (<[1%nat := node_of (link_ "elbow" 3 p) (Some 0%nat) [2%nat]]>
    (<[2%nat := node_of (link_ "wrist" 1 p) (Some 1%nat) []]> ∅)).
Definition limb_joints (p : R) : list (joint R) := [link_ "shoulder" 0 p; link_ "elbow" 3 p; link_ "wrist" 1 p].
Lemma limb_ok p : joints_of (limb p) (c_nodes crane_chain) (limb_joints p) /\ Forall unit_joint (limb_joints p) /\
  total (map span (limb_joints p)) = 4.
Proof.
  split; [repeat (constructor; [eexists; split; reflexivity|]); constructor|]. split.
  - repeat constructor; cbn; try (unfold unit_axis; cbn; ring); exact proper_1.
  - unfold limb_joints. cbn [map]. rewrite !total_cons. unfold span, extension. cbn.
    rewrite (proj1 (len_along 3 ltac:(lra))), (proj1 (len_along 1 ltac:(lra))), (proj1 (len_along 0 ltac:(lra))). lra.
Qed.
Example C58_case_hole p t nx w s : run t (end_transform crane_chain) (quiet (limb p) nx) = Done w s -> 2 <= len (tr w).
Proof.
  intros H. destruct (limb_ok p) as (Hj & Hu & Ht).
  pose proof (C58_hole t _ nx crane_chain _ (link_ "elbow" 3 p) w s Hj Hu ltac:(unfold limb_joints; set_solver) H) as Hb. rewrite Ht in Hb.
  cbn in Hb. rewrite (proj1 (len_along 3 ltac:(lra))) in Hb. lra.
Qed.
Example C58_case_tight t nx : exists w, run t (end_transform crane_chain) (quiet (limb 0) nx) = Done w (quiet (limb 0) nx) /\ len (tr w) = 4.
Proof.
  destruct (limb_ok 0) as (Hj & Hu & Ht). rewrite <- Ht.
  apply (C58_tight t _ nx crane_chain _ (V3 1 0 0) Hj); [unfold unit_axis; cbn; ring| |exact Hu].
  repeat constructor; cbn; eexists; (split; [|apply V3_eq; cbn [vx vy vz times]; rewrite ?Rmult_1_r, ?Rmult_0_r; reflexivity]); lra.
Qed.
(** C59: turning the mast's origin about z by the quaternion (0, 0, 4/5, 3/5) *)
Definition about_z : iso R := Iso (V3 5 0 0) (Qt 0 0 (4 / 5) (3 / 5)).
Example C59_case_base : proper about_z /\ forall t nx, exists w w' s',
  run t (end_transform crane_chain) (quiet (crane 0 (/ 2)) nx) = Done w (quiet (crane 0 (/ 2)) nx) /\
  run t (chain_set_origin crane_chain (iso_mul about_z (j_origin mast)) ;;; end_transform crane_chain) (quiet (crane 0 (/ 2)) nx) = Done w' s' /\
  forall x, move w' x = move about_z (move w x).
Proof.
  assert (Hp : proper about_z) by (unfold proper, unit_quat, about_z; cbn; lra). split; [exact Hp|]. intros t nx.
  apply (C59_base_moves_end t (crane 0 (/ 2)) nx crane_chain 0%nat [1; 2]%nat (node_of mast None [1%nat])); try reflexivity; [set_solver| | |exact Hp].
  - eapply joints_live, crane_joints.
  - intros a m _ Hm. destruct (crane_joints 0 (/ 2)) as [_ Hu]. unfold parts in Hu; rewrite !Forall_cons in Hu.
    apply crane_node in Hm as [[_ ->] | [[_ ->] | [_ ->]]]; apply Hu.
Qed.
(** C59: lifting the boom by a tenth and running the trolley out by a fifth moves
    the hook by at most (1 + 1/2) / 10 + 1/5 *)
Example C59_case_small t nx w w' s s' :
  run t (end_transform crane_chain) (quiet (crane 0 (/ 2)) nx) = Done w s ->
  run t (end_transform crane_chain) (quiet (crane (/ 10) (7 / 10)) nx) = Done w' s' ->
  dist (tr w') (tr w) <= 3 / 2 / 10 + / 5.
Proof.
  intros H H'. destruct (crane_joints 0 (/ 2)) as [Hj Hu]. destruct (crane_joints (/ 10) (7 / 10)) as [Hj' _].
  assert (Ho : Forall2 at_other_position (parts 0 (/ 2)) (parts (/ 10) (7 / 10))) by (repeat constructor).
  destruct (C59_small_moves t _ _ nx crane_chain _ _ w w' s s' Hj Hj' Ho Hu H H') as [Hd _].
  unfold parts in Hd. cbn in Hd.
  pose proof (proj1 (len_along 1 ltac:(lra))) as Hl.
  unfold span, extension in Hd. cbn in Hd. rewrite Hl in Hd.
  replace (0 - 0) with 0 in Hd by ring. rewrite Rabs_R0 in Hd. rewrite !(Rabs_pos_eq (_ - _)), (Rabs_pos_eq (/ 2)) in Hd by lra. lra.
Qed.
