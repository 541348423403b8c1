(** * The solver on a robot carried elsewhere: the solver *)
From Coq Require Import String Reals Lra Lia NArith.
From stdpp Require Import gmap.
From Verif Require Import Scalar ScalarR Geometry Joint Link Prog NodeM ChainM FuncsM IkM RunLemmas SpecJoint SpecNode JointProofs NodeProofs
  SpecGraph GraphProofs LinkProofs SpecChain ChainProofs SpecFK FKProofs SpecIk IkProofs IkProofs2 JacProofs SpecGeom RGeom GeomProofs PoseDiff JacReal
  SpecStep LinAlgR SvdM SpecLin SvdDet SpecBase BaseLin BaseProofs IkLookup.
Local Open Scope R_scope.

(** an arm that hangs at [root], with unit axes and rotations *)
Definition hangs (h : gmap nat (node R)) (arm : chain) (e root : nat) (l0 : list nat) : Prop :=
  path_up h e (l0 ++ [root]) /\ chain_of h (rev (l0 ++ [root])) arm /\ forall a n, a ∈ l0 ++ [root] -> h !! a = Some n -> unit_joint (n_joint n).
Lemma hangs_frozen h h' arm e root l0 : frozen h h' -> hangs h arm e root l0 -> hangs h' arm e root l0.
Proof.
  intros Hf (Hp & Hc & Hu). split; [|split].
  - eapply same_parents_path; [|exact Hp]. intros a. pose proof (f_equal (fmap n_parent) (Hf a)) as E. destruct (h !! a), (h' !! a); cbn in *; congruence.
  - eapply frozen_chain; eassumption.
  - intros a n' Ha Hn'. destruct (frozen_at h' h a n' (frozen_sym _ _ Hf) Hn') as (n & Hn & E). specialize (Hu a n Ha Hn). apply bare_eq in E. destruct E as (_ & E1 & _ & _ & E2 & _).
    unfold unit_joint in *. rewrite E1, E2 in Hu. exact Hu.
Qed.
(** errors other than that of an exhausted solver *)
Definition ordinary {A} (r : result R A) : Prop := match r with Err (NotConvergedError _ _ _) => False | _ => True end.
Lemma leaves_mimic self p cs : leaves (@ordinary unit) (mimic_loop (T := R) self p cs).
Proof.
  induction cs as [|c cs IH]; cbn [mimic_loop]; [exact I|]. cbn. intros n. destruct (n_mimic n) as [m|].
  - cbn. unfold joint_set. destruct (is_movable (n_joint n)); cbn; [|exact I]. destruct (j_limits (n_joint n)) as [r|]; [destruct (is_valid r _)|]; cbn; auto.
  - cbn. auto.
Qed.
Lemma leaves_set a p : leaves (@ordinary unit) (node_set_joint_position (T := R) a p).
Proof.
  cbn. intros n. destruct (n_mimic_parent n); [exact I|]. cbn. assert (H : leaves (@ordinary unit) (bind (mimic_loop a p (n_mimic_children n)) (fun r => bind (unlock a) (fun _ => Ret r)))).
  { eapply leaves_bind; [apply leaves_mimic|]. intros r Hr. exact Hr. }
  unfold joint_set. destruct (is_movable (n_joint n)); cbn [negb fst snd]; [|exact I]. destruct (j_limits (n_joint n)) as [r|]; [destruct (is_valid r _)|]; cbn [negb fst snd]; first [exact H|exact I].
Qed.
Lemma leaves_set_positions arm ps : leaves (@ordinary unit) (set_joint_positions (T := R) arm ps).
Proof.
  unfold set_joint_positions. destruct (decide _); [|exact I]. induction (zip (c_movable arm) ps) as [|[a p] l IH]; cbn [forM_try]; [exact I|].
  eapply leaves_bind; [apply leaves_set|]. intros [u|x] Hx; [exact IH|exact Hx].
Qed.
Lemma leaves_new ovf la sv orig err J av req idx : leaves (@ordinary (list R)) (new_positions (T := R) ovf la sv orig err J av req idx).
Proof.
  unfold new_positions. destruct (decide _).
  - destruct (nullspace_function sv).
    + apply leaves_any. intros P. apply leaves_any. intros x. apply leaves_any. intros y. destruct (decide _); [|exact I]. apply leaves_any. intros z. exact I.
    + apply leaves_any. intros x. apply leaves_any. intros y. exact I.
  - destruct (lu_solve la J err); exact I.
Qed.
Lemma leaves_ignored arm names : leaves (@ordinary (list nat)) (ignored_indices (T := R) arm names).
Proof.
  induction names as [|nm names IH]; cbn [ignored_indices]; [exact I|]. apply leaves_any. intros [i|]; [|exact I]. eapply leaves_bind; [exact IH|]. intros [x|x] Hx; exact Hx.
Qed.
Lemma ordinary_answer {A} g (x : error R) : ordinary (Err (A := A) x) -> turned_answer g (Err x) (Err x).
Proof. destruct x; cbn; auto; contradiction. Qed.
Section Solve.
  Variables (g : iso R) (root : nat) (arm : chain) (e : nat) (l0 : list nat) (target : iso R) (la : linalg R).
  Hypothesis (Hg : proper g) (Htg : proper target) (Hla : frame_free la).
  Notation hrel := (carried g root). Notation srel := (carried_states g root). Notation orel Q := (carried_outcome Q g root).
  Notation fine h := (hangs h arm e root l0).
  Let nodes := rev (l0 ++ [root]).
  Lemma carried_at h h' a n : hrel h h' -> h !! a = Some n -> exists n', h' !! a = Some n' /\ nrel g root a n n'.
  Proof. intros H Hn. specialize (H a). rewrite Hn in H. destruct (h' !! a) as [n'|]; [|contradiction]. exists n'. split; [reflexivity|exact H]. Qed.
  Lemma carried_parents h h' : hrel h h' -> same_parents h h'.
  Proof.
    intros H a. specialize (H a). destruct (h !! a) as [n|], (h' !! a) as [n'|]; try contradiction; [|reflexivity]. cbn. f_equal.
    pose proof (nrel_fields g root a n n' H) as F. apply F.
  Qed.
  Lemma carried_chain h h' : hrel h h' -> chain_of h nodes arm -> chain_of h' nodes arm.
  Proof.
    intros H (H1 & H2 & H3). assert (E : forall a, node_movable h' a = node_movable h a).
    { intros a. unfold node_movable. specialize (H a). destruct (h !! a) as [n|], (h' !! a) as [n'|]; try contradiction; [|reflexivity].
      pose proof (nrel_fields g root a n n' H) as (_ & -> & _). reflexivity. }
    split; [exact H1|]. rewrite (List.filter_ext _ _ E nodes). auto.
  Qed.
  Lemma root_out h : fine h -> root ∉ l0.
  Proof. intros (Hp & _). apply path_up_nodup in Hp. apply NoDup_app in Hp as (_ & Hd & _). intros Hin. apply (Hd root Hin). set_solver. Qed.
  Lemma local_carried a n n' : nrel g root a n n' -> unit_joint (n_joint n) ->
    local_transform (n_joint n') = if decide (a = root) then iso_mul g (local_transform (n_joint n)) else local_transform (n_joint n).
  Proof.
    intros Hn [_ Hu]. pose proof (nrel_fields g root a n n' Hn) as (_ & Ft & Fp & _ & _ & Fo & _). unfold local_transform. rewrite Ft, Fp, Fo. unfold tilt.
    destruct (decide (a = root)); [|reflexivity]. cbn [with_origin set_n_joint n_joint j_origin]. symmetry. apply iso_mul_assoc; assumption.
  Qed.
  (** the transforms along a part of the arm that starts at the root *)
  Lemma product_carried h h' m ts : hrel h h' -> root ∉ m -> (forall a n, a ∈ root :: m -> h !! a = Some n -> unit_joint (n_joint n)) ->
    Forall2 (local_at h) (root :: m) ts ->
    exists ts', Forall2 (local_at h') (root :: m) ts' /\ product iso1 ts' = iso_mul g (product iso1 ts) /\ proper (product iso1 ts).
  Proof.
    intros Hh Hm Hu Hts. pose proof (Forall_local_proper _ _ _ Hts Hu) as Hpr. inversion Hts as [|? t0 ? ts1 Ht0 Hts1]; subst. apply Forall_cons in Hpr as [Hp0 Hpr].
    exists (iso_mul g t0 :: ts1). split; [|split].
    - constructor.
      + destruct Ht0 as (n & Hn & ->). destruct (carried_at h h' root n Hh Hn) as (n' & Hn' & Hr). exists n'. split; [exact Hn'|].
        rewrite (local_carried root n n' Hr) by (apply (Hu root); [set_solver|exact Hn]). rewrite decide_True by reflexivity. reflexivity.
      + assert (Hu1 : forall a n, a ∈ m -> h !! a = Some n -> unit_joint (n_joint n)) by (intros a n Ha; apply Hu; set_solver).
        clear -Hg Hh Hm Hu1 Hts1. induction Hts1 as [|a t m ts (n & Hn & ->) H IH]; [constructor|]. constructor; [|apply IH; [set_solver|intros b nb Hb; apply Hu1; set_solver]].
        destruct (carried_at h h' a n Hh Hn) as (n' & Hn' & Hr). exists n'. split; [exact Hn'|]. rewrite (local_carried a n n' Hr) by (apply (Hu1 a); [set_solver|exact Hn]).
        rewrite decide_False by set_solver. reflexivity.
    - change (product (iso_mul iso1 (iso_mul g t0)) ts1 = iso_mul g (product (iso_mul iso1 t0) ts1)). rewrite !iso_mul_1_l.
      rewrite (product_iso1 (iso_mul g t0)) by (try assumption; apply proper_mul; assumption). rewrite (product_iso1 t0) by assumption. symmetry. apply iso_mul_assoc; assumption.
    - apply proper_product; [apply proper_1|]. constructor; assumption.
  Qed.
  Lemma nodes_eq : nodes = root :: rev l0.
  Proof. unfold nodes. rewrite rev_app_distr. reflexivity. Qed.
  Lemma fine_units h : fine h -> forall a n, a ∈ root :: rev l0 -> h !! a = Some n -> unit_joint (n_joint n).
  Proof. intros (_ & _ & Hu) a n Ha. apply Hu. rewrite elem_of_cons, elem_of_list_In, <- in_rev, <- elem_of_list_In in Ha. set_solver. Qed.
  Lemma fine_live h : fine h -> all_live h (c_nodes arm).
  Proof. intros (Hp & (Hn & _) & _). rewrite Hn. apply all_live_rev. eapply path_all_live; exact Hp. Qed.
  Lemma fine_chain h : fine h -> chain_of h (c_nodes arm) arm.
  Proof. intros (_ & Hc & _). pose proof (proj1 Hc) as E. rewrite E. exact Hc. Qed.
  Lemma end_carried t h h' nx : hrel h h' -> fine h -> exists w, proper w /\
    run t (end_transform arm) (quiet h nx) = Done w (quiet h nx) /\ run t (end_transform arm) (quiet h' nx) = Done (iso_mul g w) (quiet h' nx).
  Proof.
    intros Hh Hf. destruct (run_end_transform t h nx arm (fine_live h Hf)) as (w & ts & Hw & Hts & ->). pose proof (proj1 (fine_chain h Hf)) as _.
    pose proof Hf as (_ & (En & _) & _). fold nodes in En. rewrite En, nodes_eq in Hts.
    destruct (product_carried h h' (rev l0) ts Hh) as (ts' & Hts' & E & Hp); [|apply fine_units; exact Hf|exact Hts|].
    { intros Hin. apply (root_out h Hf). apply elem_of_list_In, in_rev, elem_of_list_In. exact Hin. }
    exists (product iso1 ts). split; [exact Hp|]. split; [exact Hw|]. rewrite <- E. unfold end_transform. rewrite En, nodes_eq. apply run_end_fold. exact Hts'.
  Qed.
  Lemma world_carried h h' a w w' : hrel h h' -> fine h -> a ∈ nodes -> world h a w -> world h' a w' -> proper w /\ w' = iso_mul g w.
  Proof.
    intros Hh Hf Ha Hw Hw'. pose proof Hf as (Hp & _ & Hu). assert (Ha' : a ∈ l0 ++ [root]) by (apply elem_of_list_In, in_rev, elem_of_list_In; exact Ha).
    apply elem_of_list_split in Ha' as (l1 & l2 & El). pose proof (path_suffix h e _ Hp l1 a l2 El) as Hpa.
    assert (Hend : exists m, rev (a :: l2) = root :: m /\ root ∉ m /\ forall b, b ∈ root :: m -> b ∈ l0 ++ [root]).
    { destruct (exists_last (l := a :: l2)) as (m & r & Em); [discriminate|]. rewrite Em in *.
      assert (Er : r = root). { assert (E : l0 ++ [root] = (l1 ++ m) ++ [r]) by (rewrite <- app_assoc; exact El). apply app_inj_tail in E as [_ E]. auto. }
      subst r. exists (rev m). rewrite rev_app_distr. split; [reflexivity|]. split.
      - intros Hin. apply (root_out h Hf). assert (E : l0 ++ [root] = (l1 ++ m) ++ [root]) by (rewrite <- app_assoc; exact El). apply app_inj_tail in E as [-> _].
        apply elem_of_list_In, in_rev, elem_of_list_In in Hin. set_solver.
      - intros b Hb. rewrite El. apply elem_of_app. right. apply elem_of_cons in Hb as [->|Hb]; [set_solver|].
        apply elem_of_list_In, in_rev, elem_of_list_In in Hb. set_solver. }
    destruct Hend as (m & Em & Hm & Hsub).
    assert (Hl : all_live h (root :: m)) by (rewrite <- Em; apply all_live_rev; eapply path_all_live; exact Hpa).
    destruct (locals_exist h _ Hl) as [ts Hts].
    destruct (product_carried h h' m ts Hh Hm) as (ts' & Hts' & E & Hpr); [intros b n Hb; apply Hu, Hsub; exact Hb|exact Hts|].
    assert (E1 : w = product iso1 ts). { eapply world_fun; [exact Hw|]. exists (a :: l2), ts. rewrite Em. auto. }
    assert (E2 : w' = product iso1 ts'). { eapply world_fun; [exact Hw'|]. exists (a :: l2), ts'. rewrite Em. split; [|auto]. eapply same_parents_path; [apply carried_parents; exact Hh|exact Hpa]. }
    subst. auto.
  Qed.
  Lemma jacobian_carried t h h' nx : hrel h h' -> fine h -> exists cols h1 h1',
    run t (jacobian arm) (quiet h nx) = Done (Mat 6 cols) (quiet h1 nx) /\
    run t (jacobian arm) (quiet h' nx) = Done (Mat 6 (map (turn_rows (rt g)) cols)) (quiet h1' nx) /\
    hrel h1 h1' /\ unch h h1 /\ Forall (fun c => length c = 6%nat) cols.
  Proof.
    intros Hh Hf. pose proof (fine_live h Hf) as Hl. pose proof (fine_chain h Hf) as Hc. pose proof Hf as (Hp & (En & _) & _).
    assert (Hp' : path_up h' e (l0 ++ [root])) by (eapply same_parents_path; [apply carried_parents; exact Hh|exact Hp]).
    assert (Hc' : chain_of h' (c_nodes arm) arm) by (rewrite En; apply (carried_chain h h' Hh); apply Hf).
    assert (Hl' : all_live h' (c_nodes arm)) by (rewrite En; apply all_live_rev; eapply path_all_live; exact Hp').
    assert (Hpf : parents_first h (c_nodes arm)) by (rewrite En; eapply from_end_parents_first; exact Hp).
    assert (Hpf' : parents_first h' (c_nodes arm)) by (rewrite En; eapply from_end_parents_first; exact Hp').
    destruct (locals_exist h _ Hl) as [ts Hts]. destruct (locals_exist h' _ Hl') as [ts' Hts'].
    destruct (run_jacobian t h nx arm ts (parents_first_order _ _ Hl Hpf) Hc Hts) as (cols & h1 & HJ & Hlen & Hcols).
    destruct (run_jacobian t h' nx arm ts' (parents_first_order _ _ Hl' Hpf') Hc' Hts') as (cols' & h1' & HJ' & Hlen' & Hcols').
    destruct (end_carried t h h' nx Hh Hf) as (w & Hw & Ew & Ew').
    unfold end_transform in Ew, Ew'. rewrite (run_end_fold t h nx _ ts Hts) in Ew. rewrite (run_end_fold t h' nx _ ts' Hts') in Ew'.
    injection Ew as Ew. injection Ew' as Ew'.
    destruct (jacobian_done t h nx arm _ _ Hl HJ) as (h2 & Es & Hu & _ & _ & H6). assert (h2 = h1) as -> by (unfold quiet in Es; congruence).
    destruct (jacobian_done t h' nx arm _ _ Hl' HJ') as (h2 & Es' & Hu' & _). assert (h2 = h1') as -> by (unfold quiet in Es'; congruence).
    exists cols, h1, h1'. split; [exact HJ|]. split; [|split; [|split; [exact Hu|exact H6]]].
    - rewrite HJ'. do 2 f_equal. apply list_eq. intros i. apply Forall2_same_length_lookup in Hcols as [Lm Hcols], Hcols' as [Lm' Hcols'].
      change (map (turn_rows (rt g)) cols) with (turn_rows (rt g) <$> cols). rewrite list_lookup_fmap. destruct (cols !! i) as [c|] eqn:Ei.
      + destruct (lookup_lt_is_Some_2 (c_movable arm) i) as [a Ha]; [rewrite Lm; eapply lookup_lt_Some; exact Ei|].
        destruct (lookup_lt_is_Some_2 cols' i) as [c' Ei']; [rewrite <- Lm'; eapply lookup_lt_Some; exact Ha|]. rewrite Ei'. cbn. f_equal.
        destruct (Hcols i a c Ha Ei) as (n & wa & Hn & Hb & Hj). destruct (Hcols' i a c' Ha Ei') as (n' & wa' & Hn' & Hb' & Hj').
        assert (Ham : a ∈ c_nodes arm).
        { destruct Hc as (_ & Hm & _). rewrite Hm in Ha. apply elem_of_list_lookup_2, elem_of_list_In, filter_In in Ha as [Ha _]. apply elem_of_list_In. exact Ha. }
        apply (based_world h _ a wa Hpf Ham) in Hb. apply (based_world h' _ a wa' Hpf' Ham) in Hb'. rewrite En in Ham.
        destruct (world_carried h h' a wa wa' Hh Hf Ham Hb Hb') as [Hpw ->].
        destruct (carried_at h h' a n Hh Hn) as (n2 & Hn2 & Hr). assert (n2 = n') as -> by congruence.
        pose proof (nrel_fields g root a n n' Hr) as (_ & Ft & _). rewrite Ft in Hj'.
        rewrite Ew' in Hj'. rewrite Ew in Hj. pose proof (jcol_turned g (tr w) wa _ c Hg Hpw Hj) as Hj2. cbn [iso_mul tr] in Hj2, Hj'. congruence.
      + apply lookup_ge_None in Ei. apply lookup_ge_None. cbn. lia.
    - intros a. specialize (Hh a). specialize (Hu a). specialize (Hu' a).
      destruct (h !! a) as [n|], (h' !! a) as [n'|], (h1 !! a) as [m|], (h1' !! a) as [m'|]; cbn in *; try contradiction; try discriminate; auto.
      apply Some_inj, strip_eq in Hu. apply Some_inj, strip_eq in Hu'. unfold same_but_caches in *. destruct (decide (a = root)); cbn in *; destruct_and!; repeat split; congruence.
  Qed.

  (** *** the rows kept *)
  Definition wops (p r : bool) : list bool := [p; p; p; r; r; r].
  Lemma select_turned q p r c : length c = 6%nat -> select (wops p r) (turn_rows q c) = turn_rows q (select (wops p r) c).
  Proof. intros Hc. do 6 (destruct c as [|? c]; [discriminate|]). destruct c; [|discriminate]. destruct p, r; reflexivity. Qed.
  Lemma rows_turned q t ovf p r cols s : Forall (fun c => length c = 6%nat) cols ->
    exists k, run t (remove_rows ovf 0 0 (wops p r) (Mat 6 cols)) s = Done (Mat (3 * k) (map (select (wops p r)) cols)) s /\
      count_true (wops p r) = (3 * k)%nat /\
      run t (remove_rows ovf 0 0 (wops p r) (Mat 6 (map (turn_rows q) cols))) s = Done (Mat (3 * k) (map (turn_rows q) (map (select (wops p r)) cols))) s /\
      Forall (fun c => length c = (3 * k)%nat) (map (select (wops p r)) cols) /\
      forall x : list R, length x = 6%nat -> length (select (wops p r) x) = (3 * k)%nat.
  Proof.
    intros Hc. assert (Hk : exists k, count_true (wops p r) = (3 * k)%nat) by (destruct p, r; [exists 2%nat|exists 1%nat|exists 1%nat|exists 0%nat]; reflexivity).
    destruct Hk as [k Hk]. exists k. 
    assert (Hsel : forall x : list R, length x = 6%nat -> length (select (wops p r) x) = (3 * k)%nat).
    { intros c Hl. rewrite <- Hk. do 6 (destruct c as [|? c]; [discriminate|]). destruct c; [|discriminate]. destruct p, r; reflexivity. }
    pose proof (run_remove_rows t ovf (wops p r) 0 0 0 cols s eq_refl) as H1.
    pose proof (run_remove_rows t ovf (wops p r) 0 0 0 (map (turn_rows q) cols) s eq_refl) as H2. cbn [Nat.add] in H1, H2. rewrite Hk in H1, H2.
    change (length (wops p r)) with 6%nat in H1, H2. split; [|split; [exact Hk|split; [|split; [|exact Hsel]]]].
    - rewrite H1 by exact Hc. reflexivity.
    - rewrite H2.
      + do 2 f_equal. rewrite !map_map. apply map_ext_in. intros c Hin. cbn. apply select_turned. rewrite Forall_forall in Hc. apply Hc, elem_of_list_In. exact Hin.
      + apply Forall_forall. intros c Hin. apply elem_of_list_fmap in Hin as (c0 & -> & Hin). rewrite Forall_forall in Hc. rewrite turn_rows_length; [apply Hc; exact Hin|]. apply (triples_of 2). apply Hc. exact Hin.
    - apply Forall_forall. intros c Hin. apply elem_of_list_fmap in Hin as (c0 & -> & Hin). rewrite Forall_forall in Hc. apply Hsel, Hc. exact Hin.
  Qed.
  Lemma diff6 (a b : iso R) : length (calc_pose_diff a b) = 6%nat.
  Proof. reflexivity. Qed.

  (** *** one iteration *)
  Definition same_diff (ops : list bool) (r r' : result R (list R)) : Prop :=
    match r with
    | Ok d => exists w, proper w /\ d = calc_pose_diff_with_constraints target w ops /\ r' = Ok (turn_rows (rt g) d)
    | Err x => ordinary (A := list R) (Err x) /\ r' = Err x
    end.
  Lemma quiet_srel h h' nx : hrel h h' -> srel (quiet h nx) (quiet h' nx).
  Proof. intros H. repeat split; auto. Qed.
  Lemma srel_quiet h nx s' : srel (quiet h nx) s' -> exists h', s' = quiet h' nx /\ hrel h h'.
  Proof. intros (H & E1 & E2 & E3). exists (heap s'). split; [|exact H]. destruct s'. cbn in *. subst. reflexivity. Qed.
  Lemma one_loop_carried t ovf sv h h' nx p r idx : hrel h h' -> fine h ->
    orel (same_diff (wops p r)) (run t (solve_one_loop_with_constraints ovf la sv arm target (wops p r) idx) (quiet h nx))
      (run t (solve_one_loop_with_constraints ovf la sv arm (iso_mul g target) (wops p r) idx) (quiet h' nx)).
  Proof.
    intros Hh Hf. unfold solve_one_loop_with_constraints. pose proof (quiet_srel h h' nx Hh) as Hs.
    destruct (run_positions t h nx arm _ (fine_chain h Hf)) as (orig & Eo & _).
    eapply orel_bind; [eapply psim_run; [apply sim_positions|exact Hs]|]. intros o o' s1 s1' E _ <- Hs1. rewrite Eo in E. injection E as <- <-.
    apply srel_quiet in Hs1 as (h2' & -> & Hh2). clear Hh Hs h'. rename h2' into h', Hh2 into Hh. pose proof (quiet_srel h h' nx Hh) as Hs.
    eapply orel_bind; [eapply psim_run; [apply sim_pure, pure_usize|exact Hs]|]. intros av av' s1 s1' E _ <- Hs1. apply inert_usize_sub in E as ->.
    apply srel_quiet in Hs1 as (h2' & -> & Hh2). clear Hh Hs h'. rename h2' into h', Hh2 into Hh.
    destruct (end_carried t h h' nx Hh Hf) as (w & Hw & Ew & Ew'). rewrite !run_bind, Ew, Ew'. cbn [obind].
    destruct (jacobian_carried t h h' nx Hh Hf) as (cols & h1 & h1' & HJ & HJ' & Hh1 & Hu & H6). rewrite !run_bind, HJ, HJ'. cbn [obind].
    destruct (rows_turned (rt g) t ovf p r cols (quiet h1 nx) H6) as (k & HR & Hk & _ & Hlen & Hsel).
    destruct (rows_turned (rt g) t ovf p r cols (quiet h1' nx) H6) as (k' & _ & Hk' & HR' & _). assert (k' = k) as -> by lia.
    rewrite !run_bind, HR, HR'. cbn [obind m_cols m_rows]. pose proof (quiet_srel h1 h1' nx Hh1) as Hs.
    set (cs := map (select (wops p r)) cols) in *.
    eapply (orel_bind g root (fun l l' => l' = map (turn_rows (rt g)) l)); [eapply psim_run; [apply sim_columns|exact Hs]|].
    intros cs1 cs1' s1 s1' E1 _ -> Hs1. pose proof (leaves_run _ _ _ _ _ _ (leaves_cols _ ovf idx 0 cs Hlen) E1) as Hcs. apply inert_remove_columns in E1 as ->.
    apply srel_quiet in Hs1 as (h2' & -> & Hh2). clear Hh1 Hs HJ' HR' h1'. rename h2' into h1', Hh2 into Hh1. pose proof (quiet_srel h1 h1' nx Hh1) as Hs.
    set (J := Mat (3 * k) cs1). change (Mat (3 * k) (map (turn_rows (rt g)) cs1)) with (turned (rt g) J).
    assert (Ee : calc_pose_diff_with_constraints (iso_mul g target) (iso_mul g w) (wops p r) = turn_rows (rt g) (calc_pose_diff_with_constraints target w (wops p r))).
    { unfold calc_pose_diff_with_constraints. rewrite pose_diff_turned by assumption. apply select_turned. reflexivity. }
    rewrite Ee, (new_turned ovf la sv orig _ J av _ idx k (rt g) Hla Hg Hcs eq_refl) by (apply Hsel; reflexivity).
    eapply orel_bind; [eapply psim_run; [apply sim_pure, pure_new|exact Hs]|]. intros x x' s1 s1' E2 _ <- Hs1. pose proof (leaves_run _ _ _ _ _ _ (leaves_new _ _ _ _ _ _ _ _ _) E2) as Hox. apply inert_new_positions in E2 as ->.
    destruct x as [ps|x]; [|split; [split; [exact Hox|reflexivity]|exact Hs1]].
    assert (Hfz : frozen h h1) by (apply unch_frozen; exact Hu). pose proof (hangs_frozen _ _ _ _ _ _ Hfz Hf) as Hf1.
    assert (Hl1 : all_live h1 (c_movable arm)) by (eapply movable_live; apply Hf1).
    eapply orel_bind; [eapply psim_run; [apply sim_clamped|exact Hs1]|]. intros x x' s1 s1'' E3 _ _ Hs2. rewrite (run_clamped t h1 nx arm ps Hl1) in E3. injection E3 as _ <-.
    apply srel_quiet in Hs2 as (h2' & -> & Hh2). set (h2 := upd_all clampF h1 _) in *.
    assert (Hf2 : fine h2) by (eapply hangs_frozen; [apply upd_clamp_frozen|exact Hf1]).
    destruct (end_carried t h2 h2' nx Hh2 Hf2) as (w2 & Hw2 & Ew2 & Ew2'). rewrite !run_bind, Ew2, Ew2'. cbn [obind run]. split; [|apply quiet_srel; exact Hh2].
    exists w2. split; [exact Hw2|]. split; [reflexivity|]. f_equal. unfold calc_pose_diff_with_constraints. rewrite pose_diff_turned by assumption. apply select_turned. reflexivity.
  Qed.

  (** *** the loop *)
  Definition turn2 (x : vec3 R * vec3 R) : vec3 R * vec3 R := (turn (rt g) (fst x), turn (rt g) (snd x)).
  Lemma halves_turned p r w : target_diff_to_len_rot_diff (turn_rows (rt g) (calc_pose_diff_with_constraints target w (wops p r))) (wops p r) =
    turn2 (target_diff_to_len_rot_diff (calc_pose_diff_with_constraints target w (wops p r)) (wops p r)).
  Proof.
    unfold calc_pose_diff_with_constraints, turn2. pose proof (diff6 target w) as E. destruct (calc_pose_diff target w) as [|a [|b [|c [|d [|f [|i []]]]]]]; try discriminate.
    destruct p, r; cbn [wops select turn_rows]; cbv zeta; unfold target_diff_to_len_rot_diff; cbn; f_equal; change (@v0 R RScalar) with (V3 0 0 0); symmetry; first [apply (turn_zero (rt g))|destruct (turn (rt g) _); reflexivity].
  Qed.
  Lemma reached_turned sv x : reached sv (turn2 x) = reached sv x.
  Proof. unfold reached, turn2. cbn [fst snd]. rewrite !vnorm_len, !len_turn by exact Hg. reflexivity. Qed.
  Lemma ik_loop_carried t ovf sv p r idx orig nx n : forall last h h', hrel h h' -> fine h ->
    orel (turned_answer g) (run t (ik_loop ovf la sv arm target (wops p r) idx orig n last) (quiet h nx))
      (run t (ik_loop ovf la sv arm (iso_mul g target) (wops p r) idx orig n (turn2 <$> last)) (quiet h' nx)).
  Proof.
    induction n as [|n IH]; intros last h h' Hh Hf; cbn [ik_loop].
    - eapply orel_bind; [eapply psim_run; [apply sim_set_positions|apply quiet_srel; exact Hh]|]. intros x x' s1 s1' E _ <- Hs1. pose proof (leaves_run _ _ _ _ _ _ (leaves_set_positions _ _) E) as Hox. destruct x as [u|x].
      + destruct last as [lr|]; cbn [fmap option_fmap option_map expect bind run].
        * split; [reflexivity|exact Hs1].
        * split; [reflexivity|]. destruct Hs1 as (A1 & A2 & A3 & A4). unfold unwind, carried_states. cbn. rewrite A3, A4. auto.
      + cbn [run]. split; [apply (ordinary_answer (A := unit)); exact Hox|exact Hs1].
    - eapply orel_bind; [apply one_loop_carried; assumption|]. intros x x' s1 s1' E E' Hd Hs1. destruct x as [d|x]; cbn [same_diff] in Hd.
      + destruct Hd as (w & Hw & Ed & ->). destruct (one_loop_ok _ _ _ _ _ _ _ _ _ _ _ _ (fine_chain h Hf) (fine_live h Hf) E) as (h1 & _ & -> & Hfz & _).
        pose proof (hangs_frozen _ _ _ _ _ _ Hfz Hf) as Hf1. apply srel_quiet in Hs1 as (h1' & -> & Hh1).
        rewrite Ed, halves_turned, <- Ed. set (lr := target_diff_to_len_rot_diff d (wops p r)). rewrite reached_turned. destruct (reached sv lr).
        * eapply orel_bind; [eapply psim_run; [apply sim_positions|apply quiet_srel; exact Hh1]|]. intros o o' s2 s2' _ _ <- Hs2.
          eapply orel_bind; [eapply psim_run; [apply sim_clamped|exact Hs2]|]. intros u u' s3 s3' _ _ _ Hs3. cbn [run]. split; [reflexivity|exact Hs3].
        * exact (IH (Some lr) h1 h1' Hh1 Hf1).
      + destruct Hd as [Hox ->]. cbn [run]. split; [apply (ordinary_answer (A := list R)); exact Hox|exact Hs1].
  Qed.
  Lemma solve_carried t ovf sv h h' nx c : whole c -> hrel h h' -> fine h ->
    orel (turned_answer g) (run t (solve_with_constraints ovf la sv arm target c) (quiet h nx))
      (run t (solve_with_constraints ovf la sv arm (iso_mul g target) c) (quiet h' nx)).
  Proof.
    intros (W1 & W2 & W3 & W4) Hh Hf. unfold solve_with_constraints.
    assert (Eops : define_operational_space c = wops (position_x c) (rotation_x c)) by (unfold define_operational_space, wops; congruence).
    destruct (run_positions t h nx arm _ (fine_chain h Hf)) as (orig & Eo & _).
    eapply orel_bind; [eapply psim_run; [apply sim_positions|apply quiet_srel; exact Hh]|]. intros o o' s1 s1' E _ <- Hs1. rewrite Eo in E. injection E as <- <-.
    apply srel_quiet in Hs1 as (h2' & -> & Hh2). clear Hh h'. rename h2' into h', Hh2 into Hh.
    eapply (orel_bind g root (turned_answer g)).
    - unfold solve_with_constraints_internal. rewrite Eops.
      eapply orel_bind; [eapply psim_run; [apply sim_positions|apply quiet_srel; exact Hh]|]. intros o o' s1 s1' E _ <- Hs1. rewrite Eo in E. injection E as <- <-.
      eapply orel_bind; [eapply psim_run; [apply sim_pure, pure_usize|exact Hs1]|]. intros av av' s2 s2' E _ <- Hs2. apply inert_usize_sub in E as ->.
      destruct (decide _); [cbn [run]; split; [reflexivity|exact Hs2]|].
      eapply orel_bind; [eapply psim_run; [apply sim_ignored|exact Hs2]|]. intros ri ri' s3 s3' E _ <- Hs3. pose proof (leaves_run _ _ _ _ _ _ (leaves_ignored _ _) E) as Hox.
      destruct ri as [idx|x]; [|cbn [run]; split; [apply (ordinary_answer (A := list nat)); exact Hox|exact Hs3]].
      destruct (run_ignored_indices t h nx arm (ignored_joint_names c)) as (ri & Hri & _); [eapply movable_live; apply Hf|]. rewrite Hri in E. injection E as _ <-.
      apply srel_quiet in Hs3 as (h3' & -> & Hh3). exact (ik_loop_carried t ovf sv _ _ _ orig nx _ None h h3' Hh3 Hf).
    - intros re re' s1 s1' _ _ Hre Hs1. assert (Ei : is_err re' = is_err re) by (destruct re as [u|[]]; cbn in Hre; rewrite Hre; reflexivity). rewrite Ei.
      destruct (is_err re); [|cbn [run]; split; [exact Hre|exact Hs1]].
      eapply orel_bind; [eapply psim_run; [apply sim_set_positions|exact Hs1]|]. intros x x' s2 s2' E _ <- Hs2. pose proof (leaves_run _ _ _ _ _ _ (leaves_set_positions _ _) E) as Hox.
      destruct x as [u|x]; cbn [run]; (split; [|exact Hs2]); [exact Hre|apply (ordinary_answer (A := unit)); exact Hox].
  Qed.
End Solve.
