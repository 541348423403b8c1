(** * C44-C48: loading URDF robots *)
From Coq Require Import String Reals Lra Psatz ZArith Floats.SpecFloat.
From Flocq Require Import Core IEEE754.BinarySingleNaN.
From stdpp Require Import gmap strings.
From Verif Require Import Scalar ScalarR ScalarF Geometry Joint Link Prog NodeM ChainM RunLemmas SpecJoint SpecNode SpecGraph SpecGeom RGeom GeomProofs
  SpecChain Api SpecValues RangeProofs FloatSub UrdfM SpecUrdf UrdfProofs UrdfProofs2 UrdfProofs3 UrdfProofs4 UrdfProofs5 Ex PropNode PropGeom.

(** ** C44.  A robot whose names are used once and whose joints have no cycle
    becomes a chain with one node per joint plus the synthetic root, parents first;
    [loaded] (SpecUrdf.v) says what every node contains, in particular: the parent
    of a joint's node is the node of the joint whose child link is its parent link,
    or the root. *)
Theorem C44_tree {S T} `{Scalar S} `{Scalar T} (conv : S -> T) (t : nat) (r : robot S) (h : gmap nat (node T)) nx fuel :
  heap_ok h nx -> well_named r -> joints_convert conv (r_joints r) -> mimics_known r -> acyclic r ->
  Datatypes.S (length (r_joints r)) < fuel ->
  exists c h', run t (chain_from_robot conv fuel r) (quiet h nx) = Done c (quiet h' (Datatypes.S nx + length (r_joints r))) /\
    c_nodes c ≡ₚ seq nx (Datatypes.S (length (r_joints r))) /\ head (c_nodes c) = Some nx /\
    (forall l1 a l2, c_nodes c = l1 ++ a :: l2 -> a <> nx -> exists p, p ∈ l1 /\ has_parent h' a p) /\
    chain_of h' (c_nodes c) c /\ loaded conv r nx h h' /\ heap_ok h' (Datatypes.S nx + length (r_joints r)).
Proof.
  intros Hok Hwn Hcv Hk Hac Hf.
  assert (Hb : forall b, nx <= b -> h !! b = None).
  { intros b Hle. apply eq_None_not_Some. intros Hs. apply (hk_bound _ _ Hok) in Hs. lia. }
  destruct (load_chain conv t r h nx fuel Hwn Hcv Hk Hb Hf) as (c & h' & R & HL & Hof & Hh & Hnd & Hin & Hperm & Hpf).
  exists c, h'. split; [exact R|]. split; [auto|]. split; [exact Hh|]. split; [exact Hpf|]. split; [exact Hof|]. split; [exact HL|]. eapply l_heap_ok; eauto.
Qed.
Print Assumptions C44_tree.
(** the fields of [loaded] that the property mentions, spelled out *)
Theorem C44_parents {S T} `{Scalar S} `{Scalar T} (conv : S -> T) (r : robot S) (h h' : gmap nat (node T)) nx :
  loaded conv r nx h h' ->
  (exists n, h' !! nx = Some n /\ j_name (n_joint n) = "root"%string /\ j_type (n_joint n) = Fixed /\ n_parent n = None) /\
  (forall i j, r_joints r !! i = Some j -> exists n, h' !! (Datatypes.S nx + i) = Some n /\ j_name (n_joint n) = uj_name j /\
     ((exists k jk, r_joints r !! k = Some jk /\ uj_child jk = uj_parent j /\ declared r (uj_parent j) /\ n_parent n = Some (Datatypes.S nx + k)) \/
      (forall jk, jk ∈ r_joints r -> declared r (uj_parent j) -> uj_child jk <> uj_parent j) /\ n_parent n = Some nx)) /\
  (forall b, b < nx -> h' !! b = h !! b).
Proof.
  intros HL. split; [|split].
  - destruct (ld_root _ _ _ _ _ HL) as (n & Hn & Hr). exists n. split; [exact Hn|]. rewrite (rn_joint _ _ _ _ Hr). split; [reflexivity|]. split; [reflexivity|]. apply (rn_parent _ _ _ _ Hr).
  - intros i j Hj. destruct (ld_joint _ _ _ _ _ HL i j Hj) as (n & Hn & Hjn). exists n. split; [exact Hn|]. split.
    { pose proof (jn_joint _ _ _ _ _ _ Hjn) as E. rewrite joint_from_cases in E. destruct (joint_limits_from conv j); [|discriminate]. injection E as <-. reflexivity. }
    destruct (jn_parent _ _ _ _ _ _ Hjn) as [(k & (ji & jk & Hi & Hk & Hc & Hd) & E)|[Hno E]].
    + left. assert (ji = j) as -> by congruence. eauto 6.
    + right. split; [|exact E]. intros jk Hjk Hd Hc. apply elem_of_list_lookup in Hjk as [k Hk]. apply (Hno k). exists j, jk. auto.
  - exact (ld_old _ _ _ _ _ HL).
Qed.
Print Assumptions C44_parents.
(** Without acyclicity: loading still returns, but joints on a cycle and below one
    are missing from the chain. *)
Theorem C44_cycles_are_dropped {S T} `{Scalar S} `{Scalar T} (conv : S -> T) (t : nat) (r : robot S) (h : gmap nat (node T)) nx fuel :
  heap_ok h nx -> well_named r -> joints_convert conv (r_joints r) -> mimics_known r -> Datatypes.S (length (r_joints r)) < fuel ->
  exists c s', run t (chain_from_robot conv fuel r) (quiet h nx) = Done c s' /\ NoDup (c_nodes c) /\
    forall a, a ∈ c_nodes c <-> a = nx \/ exists i, a = Datatypes.S nx + i /\ hangs_from_root r i.
Proof.
  intros Hok Hwn Hcv Hk Hf.
  assert (Hb : forall b, nx <= b -> h !! b = None).
  { intros b Hle. apply eq_None_not_Some. intros Hs. apply (hk_bound _ _ Hok) in Hs. lia. }
  destruct (load_chain conv t r h nx fuel Hwn Hcv Hk Hb Hf) as (c & h' & R & HL & Hof & Hh & Hnd & Hin & _). eauto 6.
Qed.
Print Assumptions C44_cycles_are_dropped.

(** ** C45 *)
Theorem C45_conversion {S T} `{Scalar S} `{Scalar T} (conv : S -> T) (j : ujoint S) (jt : joint T) : joint_from conv j = Some jt ->
  j_name jt = uj_name j /\ j_position jt = szero /\ j_velocity jt = szero /\
  tr (j_origin jt) = V3 (conv (vx (u_xyz (uj_origin j)))) (conv (vy (u_xyz (uj_origin j)))) (conv (vz (u_xyz (uj_origin j)))) /\
  j_type jt = match uj_type j with
              | URevolute | UContinuous => Rotational (axis_from conv (uj_axis j))
              | UPrismatic => Linear (axis_from conv (uj_axis j))
              | UFixed | UFloating | UPlanar | USpherical => Fixed
              end /\
  j_limits jt = (if seqb (ssub (uj_upper j) (uj_lower j)) szero then None else Some (Range (conv (uj_lower j)) (conv (uj_upper j)))).
Proof.
  rewrite joint_from_cases. unfold joint_limits_from, range_new. intros E. destruct (seqb _ _).
  - injection E as <-. cbn. unfold joint_type_from. destruct (uj_type j); auto 10.
  - destruct (sle _ _); [|discriminate]. injection E as <-. cbn. unfold joint_type_from. destruct (uj_type j); auto 10.
Qed.
Print Assumptions C45_conversion.
(** over the reals: the axis is the direction of the given one with length one, the
    origin is the displacement after roll, pitch and yaw, and the three cases of the limits *)
Theorem C45_axis_real (a : vec3 R) : a <> V3 0%R 0%R 0%R ->
  unit_axis (axis_from (fun x : R => x) a) /\ exists s, (0 < s)%R /\ times s (axis_from (fun x : R => x) a) = a.
Proof.
  destruct a as [x y z]. intros Hne. unfold axis_from, conv_v3, vnormalize, vdivs, vnorm, unit_axis, times. cbn.
  set (q := (x * x + y * y + z * z)%R).
  assert (Hq : (0 < q)%R).
  { destruct (Req_dec x 0) as [->|Hx]; [destruct (Req_dec y 0) as [->|Hy]; [destruct (Req_dec z 0) as [->|Hz]; [contradiction|]|]|]; unfold q; nra. }
  assert (Hs : (R_sqrt.sqrt q * R_sqrt.sqrt q = q)%R) by (apply R_sqrt.sqrt_sqrt; lra).
  assert (Hp : (0 < R_sqrt.sqrt q)%R) by (apply R_sqrt.sqrt_lt_R0; exact Hq).
  replace (x * x + y * y + z * z)%R with q by reflexivity. split.
  - replace (x / R_sqrt.sqrt q * (x / R_sqrt.sqrt q) + y / R_sqrt.sqrt q * (y / R_sqrt.sqrt q) + z / R_sqrt.sqrt q * (z / R_sqrt.sqrt q))%R
      with (q / (R_sqrt.sqrt q * R_sqrt.sqrt q))%R by (unfold q at 1; field; lra). rewrite Hs. field. lra.
  - exists (R_sqrt.sqrt q). split; [exact Hp|]. f_equal; field; lra.
Qed.
Print Assumptions C45_axis_real.
Theorem C45_origin_real (j : ujoint R) (jt : joint R) (x : vec3 R) : joint_from (fun x : R => x) j = Some jt ->
  move (j_origin jt) x = plus (rot_z (vz (u_rpy (uj_origin j))) (rot_y (vy (u_rpy (uj_origin j))) (rot_x (vx (u_rpy (uj_origin j))) x))) (u_xyz (uj_origin j)).
Proof.
  rewrite joint_from_cases. destruct (joint_limits_from _ j); [|discriminate]. intros E. injection E as <-. cbn [j_origin].
  destruct (uj_origin j) as [xyz [ro pi ya]]. apply C49_isometry.
Qed.
Print Assumptions C45_origin_real.
Theorem C45_limits_real (j : ujoint R) :
  ((uj_lower j <= uj_upper j)%R -> exists jt, joint_from (fun x : R => x) j = Some jt /\
     (uj_lower j = uj_upper j -> j_limits jt = None) /\
     ((uj_lower j < uj_upper j)%R -> j_limits jt = Some (Range (uj_lower j) (uj_upper j)))) /\
  ((uj_upper j < uj_lower j)%R -> joint_from (fun x : R => x) j = None).
Proof.
  destruct (limits_real j) as (H1 & H2 & H3). rewrite joint_from_cases. split.
  - intros Hle. destruct (Rle_lt_or_eq_dec _ _ Hle) as [Hlt|Heq].
    + rewrite (H2 Hlt). eexists. split; [reflexivity|]. split; [lra|reflexivity].
    + rewrite (H1 Heq). eexists. split; [reflexivity|]. split; [reflexivity|lra].
  - intros Hlt. rewrite (H3 Hlt). reflexivity.
Qed.
Print Assumptions C45_limits_real.
(** an f64 chain: equal finite limits mean none; otherwise the limits are the given
    ones (infinite ones included), and the conversion panics when lower > upper or
    one of them is NaN *)
Theorem C45_limits_f64 (L : libm) (j : ujoint spec_float) :
  valid_binary 53 1024 (uj_lower j) = true -> valid_binary 53 1024 (uj_upper j) = true ->
  (val_le (sf_value (uj_lower j)) (sf_value (uj_upper j)) ->
     exists jt, joint_from (SS := F64 L) (ST := F64 L) (fun x => x) j = Some jt /\
       (same_number (uj_lower j) (uj_upper j) -> j_limits jt = None) /\
       (~ same_number (uj_lower j) (uj_upper j) -> j_limits jt = Some (Range (uj_lower j) (uj_upper j)))) /\
  (~ val_le (sf_value (uj_lower j)) (sf_value (uj_upper j)) -> joint_from (SS := F64 L) (ST := F64 L) (fun x => x) j = None).
Proof.
  intros Hl Hu. destruct (limits_ieee L L 53 1024 (fun x => x) (fun x Hx => Hx) j Hl Hu) as (H1 & H2 & H3). fold (F64 L) in H1, H2, H3.
  rewrite (joint_from_cases (SS := F64 L) (ST := F64 L)).
  assert (Hd : same_number (uj_lower j) (uj_upper j) \/ ~ same_number (uj_lower j) (uj_upper j)).
  { unfold same_number. destruct (sf_value (uj_lower j)) as [[|x|]|], (sf_value (uj_upper j)) as [[|y|]|]; try (right; intros (q & E1 & E2); discriminate).
    destruct (Req_dec x y) as [->|Hne]; [left; exists y; auto|right]. intros (q & E1 & E2). injection E1 as ->. injection E2 as ->. contradiction. }
  split.
  - intros Hle. destruct Hd as [Hs|Hs].
    + rewrite (H1 Hs). eexists. split; [reflexivity|]. split; [reflexivity|tauto].
    + rewrite (H2 Hs Hle). eexists. split; [reflexivity|]. split; [tauto|reflexivity].
  - intros Hle. assert (Hs : ~ same_number (uj_lower j) (uj_upper j)). { intros (q & E1 & E2). apply Hle. rewrite E1, E2. cbn. lra. }
    rewrite (H3 Hs Hle). reflexivity.
Qed.
Print Assumptions C45_limits_f64.
(** an f32 chain: the limits are rounded to f32; ordered limits never panic *)
Theorem C45_limits_f32 (L L' : libm) (j : ujoint spec_float) :
  valid_binary 53 1024 (uj_lower j) = true -> valid_binary 53 1024 (uj_upper j) = true ->
  val_le (sf_value (uj_lower j)) (sf_value (uj_upper j)) ->
  exists jt, joint_from (SS := F64 L) (ST := F32 L') (SFconv 24 128) j = Some jt /\
    (same_number (uj_lower j) (uj_upper j) -> j_limits jt = None) /\
    (~ same_number (uj_lower j) (uj_upper j) -> j_limits jt = Some (Range (SFconv 24 128 (uj_lower j)) (SFconv 24 128 (uj_upper j)))).
Proof.
  intros Hl Hu Hle. destruct (limits_ieee L L' 24 128 (SFconv 24 128) (fun x _ => conv_valid 24 128 hp24 hm24 x) j Hl Hu) as (H1 & H2 & H3). fold (F32 L') in H1, H2, H3.
  rewrite (joint_from_cases (SS := F64 L) (ST := F32 L')).
  assert (Hd : same_number (uj_lower j) (uj_upper j) \/ ~ same_number (uj_lower j) (uj_upper j)).
  { unfold same_number. destruct (sf_value (uj_lower j)) as [[|x|]|], (sf_value (uj_upper j)) as [[|y|]|]; try (right; intros (q & E1 & E2); discriminate).
    destruct (Req_dec x y) as [->|Hne]; [left; exists y; auto|right]. intros (q & E1 & E2). injection E1 as ->. injection E2 as ->. contradiction. }
  destruct Hd as [Hs|Hs].
  - rewrite (H1 Hs). eexists. split; [reflexivity|]. split; [reflexivity|tauto].
  - rewrite (H2 Hs (conv_mono 24 128 hp24 hm24 _ _ Hle)). eexists. split; [reflexivity|]. split; [tauto|reflexivity].
Qed.
Print Assumptions C45_limits_f32.
(** ... but inverted limits need not panic: here lower > upper as f64, and both
    round to the same f32 *)
Theorem C45_inverted_limits_f32_refuted : exists lo hi : spec_float,
  SFltb hi lo = true /\ forall L L' j, uj_lower j = lo -> uj_upper j = hi ->
    exists jt, joint_from (SS := F64 L) (ST := F32 L') (SFconv 24 128) j = Some jt /\
      j_limits jt = Some (Range (SFconv 24 128 lo) (SFconv 24 128 lo)).
Proof.
  exists (S754_finite false 4503599627370497 (-52)), (S754_finite false 4503599627370496 (-52)).
  split; [vm_compute; reflexivity|]. intros L L' j E1 E2. rewrite (joint_from_cases (SS := F64 L) (ST := F32 L')). unfold joint_limits_from, range_new. rewrite E1, E2.
  match goal with |- context [if ?e then Some None else _] => assert (Eq : e = false) by (vm_compute; reflexivity); rewrite Eq end.
  match goal with |- context [if ?e then Some (Range _ _) else None] => assert (El : e = true) by (vm_compute; reflexivity); rewrite El end.
  eexists. split; [reflexivity|]. cbn [j_limits]. vm_compute. reflexivity.
Qed.
Print Assumptions C45_inverted_limits_f32_refuted.
(** a joint that does not convert, of whatever type, makes the whole call panic *)
Theorem C45_bad_limits_panic {S T} `{Scalar S} `{Scalar T} (conv : S -> T) (t : nat) (r : robot S) (h : gmap nat (node T)) nx fuel j :
  j ∈ r_joints r -> joint_from conv j = None -> exists msg s, run t (chain_from_robot conv fuel r) (quiet h nx) = Panicked msg s.
Proof.
  intros Hj E. unfold chain_from_robot, node_new. rewrite run_bind. unfold quiet. rewrite run_new. cbn [obind]. fold (quiet (<[nx:=fresh_node (root_joint (T:=T))]> h) (Datatypes.S nx)).
  assert (Hn : ~ joints_convert conv (r_joints r)) by (intros Hc; destruct (Hc j Hj); congruence).
  destruct (run_build_nodes_panic conv t (r_joints r) Hn (<[nx:=fresh_node root_joint]> h) (Datatypes.S nx) (Maps [] ∅ ∅ ∅)) as (msg & s & R).
  rewrite run_bind, R. eauto.
Qed.
Print Assumptions C45_bad_limits_panic.

(** ** C46.  After loading, commanding the joint [k] that joint [i] mimics moves [i]
    to position * multiplier + offset (defaults 1 and 0), provided [k] mimics nobody. *)
Theorem C46_mimic_follows {S T} `{Scalar S} `{Scalar T} (conv : S -> T) (t : nat) (r : robot S) (h h' : gmap nat (node T)) nx i k m jk p s :
  heap_ok h nx -> mimic_wf h -> well_named r -> loaded conv r nx h h' ->
  mimics r i k m -> r_joints r !! k = Some jk -> uj_mimic jk = None ->
  run t (node_set_joint_position (Datatypes.S nx + k) p) (quiet h' (Datatypes.S nx + length (r_joints r))) = Done (Ok tt) s ->
  position_at (heap s) (Datatypes.S nx + k) = Some p /\
  position_at (heap s) (Datatypes.S nx + i) =
    Some (sadd (smul p (conv (match um_multiplier m with Some x => x | None => sone end)))
               (conv (match um_offset m with Some x => x | None => szero end))).
Proof.
  intros Hok Hwf Hwn HL Hm Hjk Hnm R.
  pose proof (l_mimic_wf _ _ _ _ _ HL Hwf (hk_bound _ _ Hok)) as Hwf'.
  destruct (ld_joint _ _ _ _ _ HL k jk Hjk) as (n & Hn & Hjn).
  assert (Hmp : n_mimic_parent n = None). { destruct (jn_mimic _ _ _ _ _ _ Hjn) as [(q & m' & (ji & ? & Hi & _ & Hmm & _) & _)|(_ & E & _)]; [|exact E]. congruence. }
  destruct (C06_mimic_children_follow t h' _ _ n p s Hwf' Hn Hmp R) as (h2 & -> & (n' & Hn' & Hmv) & Hf & _). cbn [heap quiet].
  unfold position_at. split; [rewrite Hn'; destruct Hmv as [(? & _) _]; congruence|].
  pose proof Hm as (ji & jk' & Hi & _ & Hmi & _). destruct (ld_joint _ _ _ _ _ HL i ji Hi) as (ni & Hni & Hjni).
  destruct (Hf (Datatypes.S nx + i)) as (cn & mm & cn' & Hc & Hcm & Hc' & Hmv').
  { apply (proj2 (jn_mimic_children _ _ _ _ _ _ Hjn)). eauto. }
  rewrite Hc'. f_equal. destruct Hmv' as [Hmv' _]. assert (cn = ni) as -> by congruence.
  destruct (jn_mimic _ _ _ _ _ _ Hjni) as [(q & m' & (ji' & ? & Hi' & _ & Hmi' & _) & _ & E)|(E & _)]; [|congruence].
  assert (m' = m) as -> by congruence. rewrite E in Hcm. injection Hcm as <-. destruct Hmv' as (Hpos & _). rewrite Hpos. unfold follow_position, mimic_from. cbn.
  destruct (um_multiplier m), (um_offset m); reflexivity.
Qed.
Print Assumptions C46_mimic_follows.
(** ... and the command succeeds exactly when every joint involved admits its value *)
Theorem C46_succeeds_iff {S T} `{Scalar S} `{Scalar T} (conv : S -> T) (t : nat) (r : robot S) (h h' : gmap nat (node T)) nx k jk n p :
  heap_ok h nx -> mimic_wf h -> well_named r -> loaded conv r nx h h' -> r_joints r !! k = Some jk -> uj_mimic jk = None ->
  h' !! (Datatypes.S nx + k) = Some n ->
  (exists s, run t (node_set_joint_position (Datatypes.S nx + k) p) (quiet h' (Datatypes.S nx + length (r_joints r))) = Done (Ok tt) s) <->
  admissible (n_joint n) p /\
  (forall i m ni, mimics r i k m -> h' !! (Datatypes.S nx + i) = Some ni -> admissible (n_joint ni) (follow_position (mimic_from conv m) p)).
Proof.
  intros Hok Hwf Hwn HL Hjk Hnm Hn.
  pose proof (l_mimic_wf _ _ _ _ _ HL Hwf (hk_bound _ _ Hok)) as Hwf'.
  destruct (ld_joint _ _ _ _ _ HL k jk Hjk) as (n0 & Hn0 & Hjn). assert (n0 = n) as -> by congruence.
  assert (Hmp : n_mimic_parent n = None). { destruct (jn_mimic _ _ _ _ _ _ Hjn) as [(q & m' & (ji & ? & Hi & _ & Hmm & _) & _)|(_ & E & _)]; [|exact E]. congruence. }
  rewrite (C06_succeeds_iff t h' _ _ n p Hwf' Hn Hmp).
  assert (Hmi : forall i m ni, mimics r i k m -> h' !! (Datatypes.S nx + i) = Some ni -> n_mimic ni = Some (mimic_from conv m)).
  { intros i m ni Hm Hni. pose proof Hm as (ji & ? & Hi & _ & Hmi & _). destruct (ld_joint _ _ _ _ _ HL i ji Hi) as (ni' & Hni' & Hjni). assert (ni' = ni) as -> by congruence.
    destruct (jn_mimic _ _ _ _ _ _ Hjni) as [(q & m' & Hm' & _ & E)|(E & _)]; [|congruence]. destruct (mimics_fun r i q k m' m Hwn Hm' Hm) as [_ ->]. exact E. }
  split; (intros [Ha Hb]; split; [exact Ha|]).
  - intros i m ni Hm Hni. eapply Hb; [apply (proj2 (jn_mimic_children _ _ _ _ _ _ Hjn)); eauto|]. exists ni, (mimic_from conv m). eauto.
  - intros c j q Hc (cn & mm & Hcn & Hcm & -> & ->). apply (proj2 (jn_mimic_children _ _ _ _ _ _ Hjn)) in Hc as (i & -> & m & Hm).
    pose proof (Hmi i m cn Hm Hcn) as E. rewrite E in Hcm. injection Hcm as <-. eapply Hb; eauto.
Qed.
Print Assumptions C46_succeeds_iff.
Theorem C46_unknown_source_panics {S T} `{Scalar S} `{Scalar T} (conv : S -> T) (t : nat) (r : robot S) (h : gmap nat (node T)) nx fuel j m :
  heap_ok h nx -> well_named r -> j ∈ r_joints r -> uj_mimic j = Some m -> (forall k, k ∈ r_joints r -> uj_name k <> um_joint m) ->
  exists msg s, run t (chain_from_robot conv fuel r) (quiet h nx) = Panicked msg s.
Proof.
  intros Hok Hwn Hj Hm Hno.
  assert (Hb : forall b, nx <= b -> h !! b = None).
  { intros b Hle. apply eq_None_not_Some. intros Hs. apply (hk_bound _ _ Hok) in Hs. lia. }
  assert (Hk : ~ mimics_known r) by (intros Hk; destruct (Hk j m Hj Hm) as (k & Hkk & Hn); exact (Hno k Hkk Hn)).
  destruct (joints_convert_dec conv (r_joints r)) as [Hcv|Hcv].
  - apply (load_lemma conv t r h nx Hwn Hcv Hb). exact Hk.
  - assert (exists j', j' ∈ r_joints r /\ joint_from conv j' = None) as (j' & Hj' & E).
    { clear -Hcv. induction (r_joints r) as [|x l IH]; [exfalso; apply Hcv; intros x Hx; inversion Hx|]. destruct (joint_from conv x) as [y|] eqn:Ex.
      - destruct IH as (j' & Hj' & E); [|exists j'; split; [right; exact Hj'|exact E]]. intros Hl. apply Hcv. intros z Hz. apply elem_of_cons in Hz as [->|Hz]; [eauto|auto].
      - exists x. split; [left|exact Ex]. }
    eapply C45_bad_limits_panic; eauto.
Qed.
Print Assumptions C46_unknown_source_panics.

(** ** C47 *)
Theorem C47_links {S T} `{Scalar S} `{Scalar T} (conv : S -> T) (r : robot S) (h h' : gmap nat (node T)) nx :
  well_named r -> loaded conv r nx h h' ->
  (forall i j l, r_joints r !! i = Some j -> l ∈ r_links r -> ul_name l = uj_child j ->
     exists n, h' !! (Datatypes.S nx + i) = Some n /\ n_link n = Some (link_from conv l)) /\
  (forall l1 l l2, r_links r = l1 ++ l :: l2 -> free_link r l -> (forall l', l' ∈ l2 -> ~ free_link r l') ->
     exists n, h' !! nx = Some n /\ n_link n = Some (link_from conv l)) /\
  (forall i j, r_joints r !! i = Some j -> ~ declared r (uj_child j) -> exists n, h' !! (Datatypes.S nx + i) = Some n /\ n_link n = None).
Proof.
  intros Hwn HL. split; [|split].
  - intros i j l Hj Hl Hn. destruct (ld_joint _ _ _ _ _ HL i j Hj) as (n & Hnn & Hjn). exists n. split; [exact Hnn|].
    destruct (jn_link _ _ _ _ _ _ Hjn) as [(l' & Hl' & Hn' & E)|[Hd _]]; [|exfalso; apply Hd; exists l; auto].
    rewrite E. do 2 f_equal. apply elem_of_list_lookup in Hl as [a Ha], Hl' as [b Hb].
    assert (a = b) as -> by (eapply (nodup_key ul_name); [apply wn_links; exact Hwn|exact Ha|exact Hb|congruence]). congruence.
  - intros l1 l l2 E Hf Hno. destruct (ld_root _ _ _ _ _ HL) as (n & Hn & Hr). exists n. split; [exact Hn|].
    destruct (rn_link _ _ _ _ Hr) as [(m1 & l' & m2 & E' & Hf' & Hno' & ->)|[Hnone _]]; [|exfalso; apply (Hnone l); [rewrite E; set_solver|exact Hf]].
    do 2 f_equal. rewrite E in E'. clear -E' Hf Hf' Hno Hno'. revert m1 E'. induction l1 as [|x l1 IH]; intros [|y m1] E'; cbn in E'; injection E' as E1 E2.
    + congruence.
    + exfalso. apply (Hno l'); [rewrite E2; set_solver|exact Hf'].
    + exfalso. apply (Hno' l); [rewrite <- E2; set_solver|exact Hf].
    + eapply IH; eauto.
  - intros i j Hj Hd. destruct (ld_joint _ _ _ _ _ HL i j Hj) as (n & Hn & Hjn). exists n. split; [exact Hn|].
    destruct (jn_link _ _ _ _ _ _ Hjn) as [(l & Hl & Hll & _)|[_ E]]; [|exact E]. exfalso. apply Hd. exists l. auto.
Qed.
Print Assumptions C47_links.
(** the converted link keeps its name and mass, and its inertia matrix is symmetric *)
(** C47 on the run of the loader: where the links of the file are in the heap it leaves *)
Theorem C47_load {S T} `{Scalar S} `{Scalar T} (conv : S -> T) (t : nat) (r : robot S) (h : gmap nat (node T)) nx fuel :
  heap_ok h nx -> well_named r -> joints_convert conv (r_joints r) -> mimics_known r -> acyclic r ->
  Datatypes.S (length (r_joints r)) < fuel ->
  exists c h' nx', run t (chain_from_robot conv fuel r) (quiet h nx) = Done c (quiet h' nx') /\
  (forall i j l, r_joints r !! i = Some j -> l ∈ r_links r -> ul_name l = uj_child j ->
     exists n, h' !! (Datatypes.S nx + i) = Some n /\ j_name (n_joint n) = uj_name j /\ n_link n = Some (link_from conv l)) /\
  (forall l1 l l2, r_links r = l1 ++ l :: l2 -> free_link r l -> (forall l', l' ∈ l2 -> ~ free_link r l') ->
     exists n, h' !! nx = Some n /\ j_name (n_joint n) = "root"%string /\ n_link n = Some (link_from conv l)) /\
  (forall i j, r_joints r !! i = Some j -> ~ declared r (uj_child j) ->
     exists n, h' !! (Datatypes.S nx + i) = Some n /\ n_link n = None).
Proof.
  intros Hok Hwn Hcv Hk Hac Hf.
  destruct (C44_tree conv t r h nx fuel Hok Hwn Hcv Hk Hac Hf) as (c & h' & R & _ & _ & _ & _ & HL & _).
  exists c, h', (Datatypes.S nx + length (r_joints r)). split; [exact R|].
  destruct (C47_links conv r h h' nx Hwn HL) as (H1 & H2 & H3).
  destruct (C44_parents conv r h h' nx HL) as ((n0 & Hn0 & Hr & _) & Hp & _).
  split; [|split; [|exact H3]].
  - intros i j l Hj Hl Hn. destruct (H1 i j l Hj Hl Hn) as (n & Hi & E). destruct (Hp i j Hj) as (n' & Hi' & E' & _).
    exists n. assert (n' = n) as -> by congruence. auto.
  - intros l1 l l2 E Hfr Hno. destruct (H2 l1 l l2 E Hfr Hno) as (n & Hi & E'). exists n. assert (n0 = n) as -> by congruence. auto.
Qed.
Print Assumptions C47_load.

Theorem C47_inertia {S T} `{Scalar S} `{Scalar T} (conv : S -> T) (l : ulink S) :
  let m := in_inertia (l_inertial (link_from conv l)) in
  l_name (link_from conv l) = ul_name l /\ in_mass (l_inertial (link_from conv l)) = conv (ui_mass (ul_inertial l)) /\
  m12 m = m21 m /\ m13 m = m31 m /\ m23 m = m32 m /\
  m11 m = conv (ui_ixx (ul_inertial l)) /\ m22 m = conv (ui_iyy (ul_inertial l)) /\ m33 m = conv (ui_izz (ul_inertial l)) /\
  m12 m = conv (ui_ixy (ul_inertial l)) /\ m13 m = conv (ui_ixz (ul_inertial l)) /\ m23 m = conv (ui_iyz (ul_inertial l)).
Proof. cbn. repeat split. Qed.
Print Assumptions C47_inertia.
(** the shape [g'] is the shape [g] of the description, with its numbers converted *)
Definition same_shape {S T} `{Scalar S} (conv : S -> T) (g : ugeometry S) (g' : geometry T) : Prop :=
  match g with
  | UBox (V3 x y z) => g' = GBox (conv x) (conv y) (conv z)
  | UCylinder r l => g' = GCylinder (conv r) (conv l)
  | UCapsule r l => g' = GCapsule (conv r) (conv l)
  | USphere r => g' = GSphere (conv r)
  | UMesh f (Some (V3 x y z)) => g' = GMesh f (V3 (conv x) (conv y) (conv z))
  | UMesh f None => g' = GMesh f (V3 (conv sone) (conv sone) (conv sone))
  end.
Definition named (o : option string) (s : string) : Prop :=
  match o with Some n => s = n | None => s = ""%string end.
(** the colour [c'] is the colour of the description; none is black and transparent *)
Definition same_color {S T} `{Scalar S} (conv : S -> T) (c : option (S * S * S * S)) (c' : color T) : Prop :=
  match c with
  | Some (r, g, b, a) => c_r c' = conv r /\ c_g c' = conv g /\ c_b c' = conv b /\ c_a c' = conv a
  | None => c_r c' = conv szero /\ c_g c' = conv szero /\ c_b c' = conv szero /\ c_a c' = conv szero
  end.
Definition same_material {S T} `{Scalar S} (conv : S -> T) (m : option (umaterial S)) (m' : material T) : Prop :=
  match m with
  | Some m => mat_name m' = um_name m /\ same_color conv (um_color m) (mat_color m') /\ named (um_texture m) (tex_filename (mat_texture m'))
  | None => mat_name m' = ""%string /\ same_color conv None (mat_color m') /\ tex_filename (mat_texture m') = ""%string
  end.
(** C47.  The link has the visuals and the collisions of the description, in order
    and nothing else, with their names, poses (C45_conversion), shapes and
    materials; no world transform is cached. *)
Theorem C47_elements {S T} `{Scalar S} `{Scalar T} (conv : S -> T) (l : ulink S) :
  Forall2 (fun (v : uvisual S) (v' : visual T) =>
    named (uv_name v) (vi_name v') /\ vi_origin v' = isometry_from conv (uv_origin v) /\
    same_shape conv (uv_geometry v) (vi_geometry v') /\ same_material conv (uv_material v) (vi_material v') /\ vi_wt v' = None)
    (ul_visual l) (l_visuals (link_from conv l)) /\
  Forall2 (fun (c : ucollision S) (c' : collision T) =>
    named (uc_name c) (co_name c') /\ co_origin c' = isometry_from conv (uc_origin c) /\
    same_shape conv (uc_geometry c) (co_geometry c') /\ co_wt c' = None)
    (ul_collision l) (l_collisions (link_from conv l)) /\
  in_origin (l_inertial (link_from conv l)) = isometry_from conv (ui_origin (ul_inertial l)) /\
  in_wt (l_inertial (link_from conv l)) = None.
Proof.
  assert (Hg : forall g : ugeometry S, same_shape conv g (geometry_from conv g)).
  { intros [[x y z]|r n|r n|r|fn [[x y z]|]]; reflexivity. }
  assert (Hc : forall c : option (S * S * S * S), same_color conv c (color_from conv (default (szero, szero, szero, szero) c))).
  { intros [[[[r g] b] a]|]; cbn; auto. }
  split; [|split; [|split; reflexivity]].
  - cbn [l_visuals link_from]. induction (ul_visual l) as [|v vs IH]; cbn [map]; constructor; [|exact IH].
    destruct v as [nm o g mt]. cbn. split; [destruct nm; reflexivity|]. split; [reflexivity|]. split; [apply Hg|]. split; [|reflexivity].
    destruct mt as [[mn mc tx]|]; cbn.
    + split; [reflexivity|]. split; [apply Hc|]. destruct tx; reflexivity.
    + repeat split.
  - cbn [l_collisions link_from]. induction (ul_collision l) as [|v vs IH]; cbn [map]; constructor; [|exact IH].
    destruct v as [nm o g]. cbn. split; [destruct nm; reflexivity|]. split; [reflexivity|]. split; [apply Hg|reflexivity].
Qed.
Print Assumptions C47_elements.

(** ** C48 *)
Theorem C48_link_to_joint {S} (r : robot S) : NoDup (map uj_child (r_joints r)) ->
  (forall j, j ∈ r_joints r -> link_to_joint_map r !! uj_child j = Some (uj_name j)) /\
  (forall l, l ∈ r_links r -> free_link r l -> link_to_joint_map r !! ul_name l = Some "root"%string) /\
  (forall s, is_Some (link_to_joint_map r !! s) <-> declared r s \/ exists j, j ∈ r_joints r /\ uj_child j = s) /\
  ((forall j, j ∈ r_joints r -> uj_name j <> "root"%string) -> forall l, l ∈ r_links r ->
     link_to_joint_map r !! ul_name l = Some "root"%string <-> free_link r l).
Proof.
  intros Hnd.
  assert (H1 : forall j, j ∈ r_joints r -> link_to_joint_map r !! uj_child j = Some (uj_name j)).
  { intros j Hj. rewrite l2j_lookup, (foldl_insert_key uj_child uj_name (r_joints r) ∅ j Hnd Hj). reflexivity. }
  assert (H2 : forall l, l ∈ r_links r -> free_link r l -> link_to_joint_map r !! ul_name l = Some "root"%string).
  { intros l Hl Hf. rewrite l2j_lookup, (proj2 (foldl_insert_none uj_child uj_name (r_joints r) (ul_name l)) Hf).
    destruct (bool_decide_reflect (ul_name l ∈ map ul_name (r_links r))) as [_|Hn]; [reflexivity|]. exfalso. apply Hn, elem_of_list_In, in_map, elem_of_list_In, Hl. }
  split; [exact H1|]. split; [exact H2|]. split.
  - intros s. rewrite l2j_lookup. destruct (foldl _ ∅ (r_joints r) !! s) as [x|] eqn:E.
    + apply (foldl_insert_some uj_child uj_name) in E as (j & Hj & Hs & _). split; [eauto|intros _; eauto].
    + pose proof (proj1 (foldl_insert_none uj_child uj_name _ _) E) as Hno.
      destruct (bool_decide_reflect (s ∈ map ul_name (r_links r))) as [Hd|Hd].
      * split; [intros _; left; apply declared_names; exact Hd|eauto].
      * split; [intros [? ?]; discriminate|]. intros [Hd'|(j & Hj & Hs)]; [exfalso; apply Hd, declared_names; exact Hd'|exfalso; exact (Hno j Hj Hs)].
  - intros Hroot l Hl. split; [|apply H2; exact Hl]. intros E j Hj Hc. rewrite <- Hc, (H1 j Hj) in E. injection E as E. exact (Hroot j Hj E).
Qed.
Print Assumptions C48_link_to_joint.
(** the two maps are inverse to each other, away from the name "root" *)
Theorem C48_inverse {S} (r : robot S) : NoDup (map uj_child (r_joints r)) -> NoDup (map uj_name (r_joints r)) ->
  (forall j, j ∈ r_joints r -> uj_name j <> "root"%string -> joint_to_link_map r !! uj_name j = Some (uj_child j)) /\
  (forall link_name joint_name, joint_name <> "root"%string ->
     link_to_joint_map r !! link_name = Some joint_name <-> joint_to_link_map r !! joint_name = Some link_name).
Proof.
  intros Hc Hn.
  assert (H1 : forall s, s <> "root"%string -> joint_to_link_map r !! s = foldl (fun (m : gmap string string) j => <[uj_name j := uj_child j]> m) ∅ (r_joints r) !! s).
  { intros s Hs. unfold joint_to_link_map. apply root_step_other. exact Hs. }
  split.
  - intros j Hj Hr. rewrite H1 by exact Hr. apply (foldl_insert_key uj_name uj_child); assumption.
  - intros a b Hb. rewrite H1 by exact Hb. split.
    + rewrite l2j_lookup. destruct (foldl _ ∅ (r_joints r) !! a) as [x|] eqn:E.
      * intros Hx. injection Hx as ->. apply (foldl_insert_some uj_child uj_name) in E as (j & Hj & <- & <-). apply (foldl_insert_key uj_name uj_child); assumption.
      * destruct (bool_decide _); [|discriminate]. intros Hx. injection Hx as <-. exfalso. apply Hb. reflexivity.
    + intros E. apply (foldl_insert_some uj_name uj_child) in E as (j & Hj & <- & <-). apply (C48_link_to_joint r Hc). exact Hj.
Qed.
Print Assumptions C48_inverse.
(** the "root" entry of joint_to_link_map is the last link that is not named like a
    joint (instead of the link that no joint leads to); entries for "root" given by
    a joint stay only if there is no such link *)
Theorem C48_root_entry {S} (r : robot S) : (forall l, l ∈ r_links r -> ul_name l <> "root"%string) ->
  (exists l1 l l2, r_links r = l1 ++ l :: l2 /\ (forall j, j ∈ r_joints r -> uj_name j <> ul_name l) /\
     (forall l', l' ∈ l2 -> exists j, j ∈ r_joints r /\ uj_name j = ul_name l') /\
     joint_to_link_map r !! "root"%string = Some (ul_name l)) \/
  (forall l, l ∈ r_links r -> exists j, j ∈ r_joints r /\ uj_name j = ul_name l) /\
  (joint_to_link_map r !! "root"%string = None <-> forall j, j ∈ r_joints r -> uj_name j <> "root"%string).
Proof.
  intros Hne. unfold joint_to_link_map. set (m0 := foldl (fun (m : gmap string string) j => <[uj_name j := uj_child j]> m) ∅ (r_joints r)).
  change "root"%string with ROOT_JOINT_NAME. rewrite (root_step_fold m0) by auto.
  assert (Hs : forall s, (match m0 !! s with Some _ => None | None => Some s end) = None -> exists j, j ∈ r_joints r /\ uj_name j = s).
  { intros s. destruct (m0 !! s) eqn:E; [|discriminate]. intros _. destruct (foldl_insert_some uj_name uj_child (r_joints r) s _ E) as (j & Hj & Hs & _). eauto. }
  destruct (foldl_pick (fun l : ulink S => match m0 !! ul_name l with Some _ => None | None => Some (ul_name l) end) (r_links r) (m0 !! ROOT_JOINT_NAME))
    as [(l1 & l & l2 & y & E & Hy & Hno & ->)|[Hno ->]].
  - left. exists l1, l, l2. split; [exact E|]. destruct (m0 !! ul_name l) eqn:El; [discriminate|]. pose proof (proj1 (foldl_insert_none uj_name uj_child (r_joints r) (ul_name l)) El) as El'. split; [exact El'|].
    split; [|congruence]. intros l' Hl'. apply Hs. apply Hno. exact Hl'.
  - right. split; [intros l Hl; apply Hs, Hno, Hl|]. exact (foldl_insert_none uj_name uj_child (r_joints r) ROOT_JOINT_NAME).
Qed.
Print Assumptions C48_root_entry.

(** ** A concrete robot (f64): j1 turns l1 against base, j2 slides l2 along l1, j3 (on
    l1) mimics j1 with multiplier 2 and no offset, j4 is fixed to base; the limits
    of j1 are [-3, 3], those of j3 [-5, 5]. *)
Definition upose0 : upose spec_float := UPose (V3 (f 1) (f 0) (f 0)) (V3 (f 0) (f 0) (f 0)).
Definition ulink_ (s : string) : ulink spec_float := ULink s (UInertial upose0 (f 2) (f 1) (f 3) (f 4) (f 5) (f 6) (f 7)) [] [].
Definition ujoint_ (s : string) ty (p c : string) lo hi m : ujoint spec_float := UJoint s ty upose0 p c (V3 (f 0) (f 0) (f 1)) (f lo) (f hi) m.
Definition arm : robot spec_float := Robot
  [ulink_ "base"; ulink_ "l1"; ulink_ "l2"; ulink_ "l3"; ulink_ "l4"]
  [ujoint_ "j1" URevolute "base" "l1" (-3) 3 None; ujoint_ "j2" UPrismatic "l1" "l2" 0 0 None;
   ujoint_ "j3" UContinuous "l1" "l3" (-5) 5 (Some (UMimic "j1" (Some (f 2)) None)); ujoint_ "j4" UFixed "base" "l4" 0 0 None].
Definition id_conv : spec_float -> spec_float := fun x => x.

(** parents are listed before their children *)
Definition listed_in_order {S} (r : robot S) : Prop :=
  forall i k ji jk, r_joints r !! i = Some ji -> r_joints r !! k = Some jk -> uj_child jk = uj_parent ji -> k < i.
Lemma in_order_acyclic {S} (r : robot S) : listed_in_order r -> acyclic r.
Proof.
  intros Ho. assert (Hs : forall i k, parent_joint r i k -> k < i) by (intros i k (ji & jk & Hi & Hk & Hc & _); eauto).
  assert (Ht : forall i k, tc (parent_joint r) i k -> k < i) by (induction 1 as [i k Hp|i k l Hp _ IH]; [auto|apply Hs in Hp; lia]).
  intros i Hi. apply Ht in Hi. lia.
Qed.
Lemma arm_named : well_named arm.
Proof. split; apply (bool_decide_eq_true_1 _); vm_compute; reflexivity. Qed.
Lemma arm_order : listed_in_order arm.
Proof. intros [|[|[|[|i]]]] [|[|[|[|k]]]] ji jk Hi Hk Hc; cbn in Hi, Hk; simplify_eq; cbn in Hc; try discriminate; lia. Qed.
Lemma arm_converts : joints_convert id_conv (r_joints arm).
Proof.
  intros j Hj. cbn in Hj. rewrite !elem_of_cons in Hj. destruct Hj as [->|[->|[->|[->|Hj]]]]; [..|inversion Hj]; rewrite joint_from_cases;
    match goal with |- is_Some (match ?e with _ => _ end) => let v := eval vm_compute in e in assert (E : e = v) by (vm_compute; reflexivity); rewrite E; eauto end.
Qed.
Lemma arm_known : mimics_known arm.
Proof.
  intros j m Hj. cbn in Hj. rewrite !elem_of_cons in Hj. destruct Hj as [->|[->|[->|[->|Hj]]]]; [..|inversion Hj]; cbn; intros E; try discriminate.
  injection E as <-. exists (ujoint_ "j1" URevolute "base" "l1" (-3) 3 None). split; [left|reflexivity].
Qed.
Lemma empty_heap_ok : heap_ok (∅ : gmap nat (node spec_float)) 0.
Proof. split; intros *; rewrite ?lookup_empty; try (intros [? ?]; discriminate); discriminate. Qed.

Example C44_example : exists c h', run 0 (chain_from_robot id_conv 9 arm) (quiet ∅ 0) = Done c (quiet h' 5) /\
  c_nodes c ≡ₚ [0; 1; 2; 3; 4] /\ loaded id_conv arm 0 ∅ h'.
Proof.
  destruct (C44_tree id_conv 0 arm ∅ 0 9 empty_heap_ok arm_named arm_converts arm_known (in_order_acyclic _ arm_order)) as (c & h' & R & Hp & _ & _ & _ & HL & _); [cbn; lia|].
  exists c, h'. auto.
Qed.
(** ... run: the order is depth first, later siblings first, with the parents 0<-1<-2, 1<-3, 0<-4 *)
Example C44_run : (match run 0 (chain_from_robot id_conv 9 arm) (quiet ∅ 0) with
  | Done c s => Some (c_nodes c, map (fun a => n_parent <$> heap s !! a) [0; 1; 2; 3; 4])
  | _ => None end) = Some ([0; 4; 1; 3; 2], [Some None; Some (Some 0); Some (Some 1); Some (Some 1); Some (Some 0)]).
Proof. vm_compute. reflexivity. Qed.

(** two joints on a cycle beside a proper one: only the root and the proper joint are left *)
Definition ring : robot spec_float := Robot
  [ulink_ "base"; ulink_ "a"; ulink_ "b"; ulink_ "c"]
  [ujoint_ "ja" UFixed "b" "a" 0 0 None; ujoint_ "jb" UFixed "a" "b" 0 0 None; ujoint_ "jc" UFixed "base" "c" 0 0 None].
Example C44_ring_run : (match run 0 (chain_from_robot id_conv 9 ring) (quiet ∅ 0) with Done c s => Some (c_nodes c) | _ => None end) = Some [0; 3].
Proof. vm_compute. reflexivity. Qed.
Example C44_ring_cyclic : ~ acyclic ring.
Proof.
  intros Hac. apply (Hac 0). apply (tc_l _ 0 1 0); [|apply tc_once]; eexists _, _; (split; [reflexivity|]; split; [reflexivity|]; split; [reflexivity|]).
  - exists (ulink_ "b"). split; [cbn; set_solver|reflexivity].
  - exists (ulink_ "a"). split; [cbn; set_solver|reflexivity].
Qed.

(** C45: limits lower > upper on a fixed joint panic *)
Example C45_fixed_panics : exists msg s, run 0 (chain_from_robot id_conv 9 (Robot [ulink_ "base"; ulink_ "a"] [ujoint_ "j" UFixed "base" "a" 1 0 None])) (quiet ∅ 0) = Panicked msg s.
Proof. eapply C45_bad_limits_panic; [apply elem_of_list_here|]. rewrite joint_from_cases. reflexivity. Qed.
Example C45_values_are_valid : valid_binary 53 1024 (f (-3)) = true /\ valid_binary 53 1024 (f 3) = true /\ SFleb (f (-3)) (f 3) = true.
Proof. vm_compute. auto. Qed.

Definition ran_ok {T} (o : outcome T (result T unit)) : bool := match o with Done (Ok tt) _ => true | _ => false end.
Lemma is_ok_done {T} (o : outcome T (result T unit)) : ran_ok o = true -> exists s, o = Done (Ok tt) s.
Proof. destruct o as [[[]|] s| | | |]; try discriminate. eauto. Qed.
(** C46: j1 to 1 takes j3 to 2; j1 to 3 is refused because j3 would go to 6 *)
Example C46_example : exists h' s, loaded id_conv arm 0 ∅ h' /\ run 0 (node_set_joint_position 1 (f 1)) (quiet h' 5) = Done (Ok tt) s /\
  position_at (heap s) 1 = Some (f 1) /\ position_at (heap s) 3 = Some (f 2).
Proof.
  destruct C44_example as (c & h' & R & _ & HL).
  assert (Hwf : mimic_wf (∅ : gmap nat (node spec_float))) by (intros a n c' E; rewrite lookup_empty in E; discriminate).
  destruct (ld_joint _ _ _ _ _ HL 0 _ eq_refl) as (n & Hn & Hjn).
  assert (Hm : mimics arm 2 0 (UMimic "j1" (Some (f 2)) None)) by (eexists _, _; repeat split; reflexivity).
  assert (Hs : exists s, run 0 (node_set_joint_position 1 (f 1)) (quiet h' 5) = Done (Ok tt) s).
  { assert (Hrun : (match run 0 (chain_from_robot id_conv 9 arm) (quiet ∅ 0) with Done c s => ran_ok (run 0 (node_set_joint_position 1 (f 1)) s) | _ => false end) = true) by (vm_compute; reflexivity).
    rewrite R in Hrun. exact (is_ok_done _ Hrun). }
  destruct Hs as [s Hs]. exists h', s. split; [exact HL|]. split; [exact Hs|].
  destruct (C46_mimic_follows id_conv 0 arm ∅ h' 0 2 0 _ _ (f 1) s empty_heap_ok Hwf arm_named HL Hm eq_refl eq_refl Hs) as [E1 E2].
  split; [exact E1|]. change (Datatypes.S 0 + 2) with 3 in E2. rewrite E2. vm_compute. reflexivity.
Qed.
Example C46_refused : (match run 0 (chain_from_robot id_conv 9 arm) (quiet ∅ 0) with
  | Done c s => (match run 0 (node_set_joint_position 1 (f 3)) s with Done (Ok tt) _ => Some true | Done _ _ => Some false | _ => None end) | _ => None end) = Some false.
Proof. vm_compute. reflexivity. Qed.
Example C46_unknown : exists msg s, run 0 (chain_from_robot id_conv 9 (Robot [ulink_ "base"; ulink_ "a"] [ujoint_ "j" URevolute "base" "a" 0 1 (Some (UMimic "k" None None))])) (quiet ∅ 0) = Panicked msg s.
Proof.
  eapply C46_unknown_source_panics; [exact empty_heap_ok|split; apply (bool_decide_eq_true_1 _); vm_compute; reflexivity|apply elem_of_list_here|reflexivity|].
  intros k Hk. cbn in Hk. apply elem_of_list_singleton in Hk as ->. discriminate.
Qed.
(** C47: the base link is on the root, l3 on j3 *)
Example C47_run : (match run 0 (chain_from_robot id_conv 9 arm) (quiet ∅ 0) with
  | Done c s => map (fun a => n ← heap s !! a; l ← n_link n; Some (l_name l)) [0; 1; 2; 3; 4] | _ => [] end) =
  [Some "base"; Some "l1"; Some "l2"; Some "l3"; Some "l4"]%string.
Proof. vm_compute. reflexivity. Qed.
(** with two free links the root keeps the last *)
Example C47_last_wins : (match run 0 (chain_from_robot id_conv 9 (Robot [ulink_ "a"; ulink_ "b"] [])) (quiet ∅ 0) with
  | Done c s => (n ← heap s !! 0; l ← n_link n; Some (l_name l)) | _ => None end) = Some "b"%string.
Proof. vm_compute. reflexivity. Qed.
(** C48: "the root entry of joint_to_link_map names the link that is no joint's child" fails *)
Theorem C48_root_entry_refuted : exists r : robot spec_float, well_named r /\ acyclic r /\
  free_link r (ulink_ "base") /\ ulink_ "base" ∈ r_links r /\
  joint_to_link_map r !! "root"%string = Some "l4"%string /\ exists j, j ∈ r_joints r /\ uj_child j = "l4"%string.
Proof.
  exists arm. split; [exact arm_named|]. split; [exact (in_order_acyclic _ arm_order)|]. split; [|split; [left|split; [vm_compute; reflexivity|]]].
  - intros j Hj. cbn in Hj. rewrite !elem_of_cons in Hj. destruct Hj as [->|[->|[->|[->|Hj]]]]; [discriminate..|inversion Hj].
  - eexists. split; [do 3 right; left|reflexivity].
Qed.
Print Assumptions C48_root_entry_refuted.
Example C48_run : link_to_joint_map arm !! "base"%string = Some "root"%string /\ link_to_joint_map arm !! "l3"%string = Some "j3"%string /\ joint_to_link_map arm !! "j3"%string = Some "l3"%string.
Proof. vm_compute. auto. Qed.
