(** * C62: in floating point, solver success means the ideal arm really is at the target *)
From Coq Require Import Reals ZArith Lra Lia Psatz String Floats.SpecFloat.
From Flocq Require Import Core IEEE754.BinarySingleNaN.
From stdpp Require Import gmap.
From Verif Require Import Scalar ScalarR ScalarF Geometry Joint Link Prog NodeM ChainM IkM RunLemmas SpecValues SpecFloatErr FloatErr
  SpecNode SpecGraph SpecChain GraphProofs ChainProofs SpecFK FKProofs SpecGeom RGeom GeomProofs SpecIk IkProofs PropIk SpecReach ReachProofs SpecAcc AccProofs AccProofs2
  PropFK PropAcc Ex SpecSolved SolvedProofs SolvedProofs2.
Local Open Scope R_scope.

(** the solver starts inside the limits, or rewrites every joint *)
Definition start_ok {T} `{Scalar T} (la : linalg T) (h : gmap nat (node T)) arm (c : constraints) : Prop :=
  inside_limits h (c_movable arm) \/
  sized la /\ (ignored_joint_names c = [] \/ (count_true (define_operational_space c) + length (ignored_joint_names c) < c_dof arm)%nat).

Lemma ok_on_target {T} `{Scalar T} `{!OrdLaws T} t ovf (la : linalg T) (sv : solver T) (h : gmap nat (node T)) nx arm target c s xs :
  chain_of h (c_nodes arm) arm -> all_live h (c_nodes arm) -> limits_ok h (c_movable arm) -> start_ok la h arm c ->
  run t (solve_with_constraints ovf la sv arm target c) (quiet h nx) = Done (Ok tt) s -> joints_of (heap s) (c_nodes arm) xs ->
  only_moved (c_movable arm) h (heap s) /\ on_target sv c target (product iso1 (map local_transform xs)).
Proof.
  intros H1 H2 H3 H4 H5 H6.
  assert (exists h' w, s = quiet h' nx /\ run t (end_transform arm) s = Done w s /\ on_target sv c target w /\ only_moved (c_movable arm) h h')
    as (h' & w & -> & Hw & Hon & Hm) by (destruct H4 as [H4|[H4 H4']]; [eapply C31_ok_means_on_target|eapply C31_any_start]; eassumption).
  split; [exact Hm|]. cbn [heap quiet] in *. rewrite (run_end_joints t h' nx arm xs H6) in Hw. injection Hw as <-. exact Hon.
Qed.
Lemma stands_unit prec emax a xs js : Forall2 (stands_for prec emax a) xs js -> Forall unit_joint js.
Proof.
  induction 1 as [|x j xs js (Ht & _ & _ & [Hq _]) H IH]; constructor; [|exact IH]. split; [|exact Hq].
  destruct (j_type x), (j_type j); try contradiction; try exact I; apply Ht.
Qed.
Lemma constrained_tri c t r w : len (only_constrained c t w) <= len (only_constrained c t r) + dist r w.
Proof.
  replace (only_constrained c t w) with (plus (only_constrained c t r) (only_constrained c r w)).
  - eapply Rle_trans; [apply len_plus|]. apply Rplus_le_compat_l. unfold dist, minus, only_constrained. 
    rewrite <- (len_abs (if position_x c then _ else _)), <- (len_abs (vx r - vx w)).
    apply len_mono; [destruct (position_x c)|destruct (position_y c)|destruct (position_z c)]; rewrite ?Rabs_R0; (split; [first [apply Rabs_pos|apply Rle_refl]|]; first [apply Rle_refl|apply Rabs_pos]).
  - unfold only_constrained, plus. cbn [vx vy vz]. f_equal; [destruct (position_x c)|destruct (position_y c)|destruct (position_z c)]; ring.
Qed.

(** C62, position: when the solver returns [Ok] and the joints it left stand for those of an
    ideal arm, the ideal arm's end is within the allowed distance of the target, up to the
    accumulated rounding error. *)
Theorem C62_position prec emax (Hp : Prec_gt_0 prec) (Hm : Prec_lt_emax prec emax) (L : libm) a d
    t t' ovf (la : linalg spec_float) (sv : solver spec_float) (hf : gmap nat (node spec_float)) (hr : gmap nat (node R)) nx nx' arm target c s
    xs js tg tau :
  let F := FScalar prec emax L in
  (11 <= prec)%Z -> 0 <= a -> 0 <= d -> libm_within prec emax d L ->
  chain_of hf (c_nodes arm) arm -> all_live hf (c_nodes arm) -> limits_ok (Sc := F) hf (c_movable arm) -> @start_ok _ F la hf arm c ->
  run t (solve_with_constraints (Sc := F) ovf la sv arm target c) (quiet hf nx) = Done (Ok tt) s ->
  joints_of (heap s) (c_nodes arm) xs -> joints_of hr (c_nodes arm) js -> Forall2 (stands_for prec emax a) xs js -> fits prec emax a d js ->
  vval prec emax (tr target) tg -> val prec emax (allowable_target_distance sv) tau ->
  exists w, run t' (end_transform arm) (quiet hr nx') = Done w (quiet hr nx') /\
    len (only_constrained c tg (tr w)) <=
      (1 + 8 * unit_roundoff prec) * tau + faint prec emax + (growth prec a d ^ (8 * length js) - 1) * reach emax js.
Proof.
  intros F Hprec Ha Hd HL Hc Hl Hlim Hst Hrun Hx Hj Hs Hf Htg Hta. pose proof (F_OrdLaws prec emax L) as OL.
  destruct (ok_on_target t ovf la sv hf nx arm target c s xs Hc Hl Hlim Hst Hrun Hx) as [_ [Hpos _]].
  eexists. split; [apply run_end_joints, Hj|].
  destruct (product_close prec emax Hp Hm L Hprec a d Ha Hd HL xs js Hs Hf) as (r & [Hrt _] & _ & Hdist).
  pose proof (position_back prec emax Hp Hm L Hprec c target _ tg (tr r) _ tau Htg Hrt Hta Hpos) as HB.
  pose proof (u_small prec Hprec) as [U0 U1]. destruct (f_facts prec emax Hm Hprec) as (F0 & FF & Ff).
  pose proof (faint_f prec emax Hm Hprec) as FN. set (f := R_sqrt.sqrt (unit_roundoff prec * tiny emax)) in *. set (u := unit_roundoff prec) in *. set (fn := faint prec emax) in *.
  assert (N0 : 0 <= fn) by apply sqrt_pos. assert (fn * u <= fn * / 2048) by (apply Rmult_le_compat_l; lra).
  assert (u * f <= / 2048 * f) by (apply Rmult_le_compat_r; lra).
  pose proof (constrained_tri c tg (tr r) (tr (product iso1 (map local_transform js)))) as Tri. lra.
Qed.
Print Assumptions C62_position.

(** C62, orientation: if all three rotations are constrained and the target's rotation is the
    unit quaternion [p] up to [b], the angle between the ideal arm's end and [p] is within the
    allowed angle, up to the accumulated rounding error. *)
Theorem C62_orientation prec emax (Hp : Prec_gt_0 prec) (Hm : Prec_lt_emax prec emax) (L : libm) a d d' b
    t t' ovf (la : linalg spec_float) (sv : solver spec_float) (hf : gmap nat (node spec_float)) (hr : gmap nat (node R)) nx nx' arm target c s
    xs js p tau :
  let F := FScalar prec emax L in
  (11 <= prec)%Z -> 0 <= a -> 0 <= d -> libm_within prec emax d L -> 0 <= d' -> atan2_within prec emax d' L ->
  chain_of hf (c_nodes arm) arm -> all_live hf (c_nodes arm) -> limits_ok (Sc := F) hf (c_movable arm) -> @start_ok _ F la hf arm c ->
  run t (solve_with_constraints (Sc := F) ovf la sv arm target c) (quiet hf nx) = Done (Ok tt) s ->
  joints_of (heap s) (c_nodes arm) xs -> joints_of hr (c_nodes arm) js -> Forall2 (stands_for prec emax a) xs js -> fits prec emax a d js ->
  growth prec a d ^ length js <= 2 -> fully_oriented c -> near_quat prec emax b (rt target) p -> b <= 1 ->
  val prec emax (allowable_target_angle sv) tau -> 0 <= tau ->
  exists w, run t' (end_transform arm) (quiet hr nx') = Done w (quiet hr nx') /\ unit_quat (rt w) /\
    angle_between p (rt w) <=
      (1 + 16 * unit_roundoff prec) * tau + 2 * d' + 8 * b + 4 * (growth prec a d ^ length js - 1) +
      240 * unit_roundoff prec + 17 * faint prec emax.
Proof.
  intros F Hprec Ha Hd HL Hd' HA Hc Hl Hlim Hst Hrun Hx Hj Hs Hf Hg (Ox & Oy & Oz) [Up (q & Hq & Dq)] Hb Hta T0. pose proof (F_OrdLaws prec emax L) as OL.
  destruct (ok_on_target t ovf la sv hf nx arm target c s xs Hc Hl Hlim Hst Hrun Hx) as [_ [_ Hrot]].
  eexists. split; [apply run_end_joints, Hj|].
  assert (Uw : unit_quat (rt (product iso1 (map local_transform js)))).
  { apply (proper_product _ _ proper_1). apply Forall_map. eapply Forall_impl; [exact (stands_unit _ _ _ _ _ Hs)|]. intros j Hu. apply proper_local, Hu. }
  split; [exact Uw|].
  destruct (product_close prec emax Hp Hm L Hprec a d Ha Hd HL xs js Hs Hf) as (r & [_ Hrr] & Hqd & _).
  set (x := @product _ F (@iso1 _ F) (map (@local_transform _ F) xs)) in *.
  assert (Hrot' : SFltb (@vnorm _ F (@qscaled_axis _ F (@qmul _ F (rt target) (@qconj _ F (rt x))))) (allowable_target_angle sv) = true).
  { rewrite <- Hrot. unfold rotation_error. rewrite Ox, Oy, Oz. unfold keep. set (v := @qscaled_axis _ F _). clearbody v. destruct v. reflexivity. }
  exact (rotation_back prec emax Hp Hm L Hprec target x q (rt r) p _ b _ d' _ tau Hq Hrr Up Uw Dq Hqd Hb ltac:(lra) Hta T0 Hd' HA Hrot').
Qed.
Print Assumptions C62_orientation.

(** the joints the solver leaves are those it was given, at other positions: if these are
    finite, they stand for the given ideal joints at these positions *)
Theorem C62_ideal_arm prec emax (L : libm) a t ovf (la : linalg spec_float) (sv : solver spec_float)
    (hf : gmap nat (node spec_float)) nx arm target c s xs0 js0 xs ps :
  let F := FScalar prec emax L in
  chain_of hf (c_nodes arm) arm -> all_live hf (c_nodes arm) -> limits_ok (Sc := F) hf (c_movable arm) -> @start_ok _ F la hf arm c ->
  run t (solve_with_constraints (Sc := F) ovf la sv arm target c) (quiet hf nx) = Done (Ok tt) s ->
  joints_of hf (c_nodes arm) xs0 -> Forall2 (stands_for prec emax a) xs0 js0 ->
  joints_of (heap s) (c_nodes arm) xs -> Forall2 (fun x => val prec emax (j_position x)) xs ps ->
  exists js, Forall2 (stands_for prec emax a) xs js /\ Forall2 at_other_position js0 js /\ map j_position js = ps.
Proof.
  intros F Hc Hl Hlim Hst Hrun Hx0 Hs0 Hx Hps. pose proof (F_OrdLaws prec emax L) as OL.
  destruct (ok_on_target t ovf la sv hf nx arm target c s xs Hc Hl Hlim Hst Hrun Hx) as [[Hh _] _]. clear Hc Hl Hlim Hst Hrun OL.
  revert xs0 js0 xs ps Hx0 Hs0 Hx Hps. unfold joints_of. induction (c_nodes arm) as [|e l IH]; intros xs0 js0 xs ps Hx0 Hs0 Hx Hps.
  - inversion Hx0; subst. inversion Hs0; subst. inversion Hx; subst. inversion Hps; subst. exists []. repeat constructor.
  - inversion Hx0 as [|? x0 ? xs0' (n & Hn & ->) Hx0']; subst. inversion Hs0 as [|? j0 ? js0' Hj0 Hs0']; subst.
    inversion Hx as [|? x ? xs' (n' & Hn' & ->) Hx']; subst. inversion Hps as [|? p ? ps' Hp' Hps']; subst.
    destruct (IH _ _ _ _ Hx0' Hs0' Hx' Hps') as (js & H1 & H2 & H3).
    pose proof (Hh e) as He. rewrite Hn, Hn' in He. destruct He as (_ & Et & _ & _ & Eo & _).
    exists (Joint (j_name j0) (j_type j0) p (j_velocity j0) (j_limits j0) (j_origin j0) None None :: js).
    split; [|split]; [constructor; [|exact H1]|constructor; [split; reflexivity|exact H2]|cbn; f_equal; exact H3].
    destruct Hj0 as (A & _ & B & C). split; [rewrite Et; exact A|]. split; [exact Hp'|]. rewrite Eo. split; [exact B|exact C].
Qed.
Print Assumptions C62_ideal_arm.

(** ** in numbers: axes, rotations, sines, cosines, the target's rotation and arc tangents right to four units of roundoff *)
Theorem C62_linear prec emax (Hp : Prec_gt_0 prec) (Hm : Prec_lt_emax prec emax) (L : libm)
    t t' ovf (la : linalg spec_float) (sv : solver spec_float) (hf : gmap nat (node spec_float)) (hr : gmap nat (node R)) nx nx' arm target c s
    xs js tg p tau tau' :
  let F := FScalar prec emax L in let u := unit_roundoff prec in let n := INR (length js) in
  (11 <= prec)%Z -> libm_within prec emax (4 * u) L ->
  chain_of hf (c_nodes arm) arm -> all_live hf (c_nodes arm) -> limits_ok (Sc := F) hf (c_movable arm) -> @start_ok _ F la hf arm c ->
  run t (solve_with_constraints (Sc := F) ovf la sv arm target c) (quiet hf nx) = Done (Ok tt) s ->
  joints_of (heap s) (c_nodes arm) xs -> joints_of hr (c_nodes arm) js -> Forall2 (stands_for prec emax (4 * u)) xs js ->
  2048 * n * u <= 1 -> total (map span js) <= bpow radix2 (emax - 8) ->
  exists w, run t' (end_transform arm) (quiet hr nx') = Done w (quiet hr nx') /\ unit_quat (rt w) /\
    (vval prec emax (tr target) tg -> val prec emax (allowable_target_distance sv) tau ->
     len (only_constrained c tg (tr w)) <=
       (1 + 8 * u) * tau + faint prec emax + 2048 * n * u * (total (map span js) + 32 * n * tiny emax)) /\
    (atan2_within prec emax (4 * u) L -> fully_oriented c -> near_quat prec emax (4 * u) (rt target) p ->
     val prec emax (allowable_target_angle sv) tau' -> 0 <= tau' ->
     angle_between p (rt w) <= (1 + 16 * u) * tau' + 1024 * n * u + 280 * u + 17 * faint prec emax).
Proof.
  intros F u n Hprec HL Hc Hl Hlim Hst Hrun Hx Hj Hs Hn Ht. pose proof (u_small prec Hprec) as [U0 U1]. pose proof (mu_small prec emax Hm Hprec) as [M0 M1].
  fold u in U0, U1. pose proof (growth_small prec Hprec) as [G0 G1]. fold u in G0, G1. set (G := growth prec (4 * u) (4 * u)) in *.
  assert (N0 : 0 <= n) by apply pos_INR.
  assert (N1 : 0 <= n * u) by (apply Rmult_le_pos; lra).
  assert (B1 : G ^ length js <= 1 + 256 * n * u).
  { eapply Rle_trans; [apply (pow_incr _ (1 + 128 * u)); lra|]. eapply Rle_trans; [apply pow_bound; [lra|fold n; lra]|]. fold n. lra. }
  assert (En : INR (8 * length js) = 8 * n) by (rewrite mult_INR; cbn; fold n; ring).
  assert (B8 : G ^ (8 * length js) <= 1 + 2048 * n * u).
  { eapply Rle_trans; [apply (pow_incr _ (1 + 128 * u)); lra|].
    eapply Rle_trans; [apply pow_bound; [lra|rewrite En; lra]|]. rewrite En. lra. }
  pose proof (pow_ge_1 G (8 * length js) ltac:(lra)) as G8. pose proof (total_pos js) as T0.
  assert (Mu : tiny emax <= 2 * u).
  { unfold tiny, u, unit_roundoff. replace (2 * bpow radix2 (- prec)) with (bpow radix2 (1 + - prec)) by (rewrite bpow_plus; reflexivity). apply bpow_le. red in Hm. lia. }
  assert (N2 : n * tiny emax <= n * (2 * u)) by (apply Rmult_le_compat_l; lra).
  assert (N3 : 0 <= n * tiny emax) by (apply Rmult_le_pos; lra).
  assert (Er : reach emax js = total (map span js) + 32 * n * tiny emax) by (unfold reach, lost; fold n; ring).
  assert (Hfit : fits prec emax (4 * u) (4 * u) js).
  { unfold fits. fold G. rewrite Er.
    assert (G ^ (8 * length js) * (total (map span js) + 32 * n * tiny emax + 1) <= 2 * (bpow radix2 (emax - 8) + 2)) by (apply Rmult_le_compat; lra).
    assert (E8 : bpow radix2 emax = 256 * bpow radix2 (emax - 8)).
    { change 256 with (bpow radix2 8). rewrite <- bpow_plus. f_equal. lia. }
    assert (16 <= bpow radix2 (emax - 8)) by (change 16 with (bpow radix2 4); apply bpow_le; red in Hm; lia). lra. }
  eexists. split; [apply run_end_joints, Hj|]. split; [|split].
  - apply (proper_product _ _ proper_1). apply Forall_map. eapply Forall_impl; [exact (stands_unit _ _ _ _ _ Hs)|]. intros j Hu. apply proper_local, Hu.
  - intros Htg Hta. destruct (C62_position prec emax Hp Hm L (4 * u) (4 * u) t t' ovf la sv hf hr nx nx' arm target c s xs js tg tau) as (w & Hw & HB); try assumption; try lra.
    rewrite (run_end_joints t' hr nx' arm js Hj) in Hw. injection Hw as <-. fold u G in HB. rewrite Er in HB.
    eapply Rle_trans; [exact HB|]. apply Rplus_le_compat_l, Rmult_le_compat_r; lra.
  - intros HA Ho Hq Hta T0'. destruct (C62_orientation prec emax Hp Hm L (4 * u) (4 * u) (4 * u) (4 * u) t t' ovf la sv hf hr nx nx' arm target c s xs js p tau') as (w & Hw & _ & HB);
      try assumption; try lra; [fold G; lra|].
    rewrite (run_end_joints t' hr nx' arm js Hj) in Hw. injection Hw as <-. fold u G in HB. lra.
Qed.
Print Assumptions C62_linear.

Lemma two_pow k : bpow radix2 (Z.of_nat k) = 2 ^ k.
Proof. rewrite bpow_powerRZ. symmetry. apply pow_powerRZ. Qed.
Lemma two_pow_inv k : bpow radix2 (- Z.of_nat k) = / 2 ^ k.
Proof. rewrite bpow_opp, two_pow. reflexivity. Qed.
Lemma faint_le prec emax k : (2 - emax + prec <= -2 * k)%Z -> faint prec emax <= bpow radix2 (- k).
Proof.
  intros H. unfold faint, tiny, unit_roundoff, Rdiv. rewrite <- bpow_opp, <- bpow_plus.
  apply Rle_trans with (R_sqrt.sqrt (bpow radix2 (- k) * bpow radix2 (- k))); [|rewrite sqrt_square; [apply Rle_refl|apply bpow_ge_0]].
  apply sqrt_le_1_alt. rewrite <- bpow_plus. apply bpow_le. lia.
Qed.
(** in f64: the allowed distance, and 2^-42 of the arm's length per joint; the allowed angle,
    and 2^-43 per joint *)
Theorem C62_f64 (L : libm) t t' ovf (la : linalg spec_float) (sv : solver spec_float)
    (hf : gmap nat (node spec_float)) (hr : gmap nat (node R)) nx nx' arm target c s xs js tg p tau tau' :
  let F := F64 L in let n := INR (length js) in
  libm_within 53 1024 (/ 2 ^ 51) L ->
  chain_of hf (c_nodes arm) arm -> all_live hf (c_nodes arm) -> limits_ok (Sc := F) hf (c_movable arm) -> @start_ok _ F la hf arm c ->
  run t (solve_with_constraints (Sc := F) ovf la sv arm target c) (quiet hf nx) = Done (Ok tt) s ->
  joints_of (heap s) (c_nodes arm) xs -> joints_of hr (c_nodes arm) js -> Forall2 (stands_for 53 1024 (/ 2 ^ 51)) xs js ->
  n <= 2 ^ 42 -> total (map span js) <= 2 ^ 1000 ->
  exists w, run t' (end_transform arm) (quiet hr nx') = Done w (quiet hr nx') /\ unit_quat (rt w) /\
    (vval 53 1024 (tr target) tg -> val 53 1024 (allowable_target_distance sv) tau ->
     len (only_constrained c tg (tr w)) <=
       (1 + / 2 ^ 50) * tau + n * / 2 ^ 42 * (total (map span js) + n * / 2 ^ 1000) + / 2 ^ 484) /\
    (atan2_within 53 1024 (/ 2 ^ 51) L -> fully_oriented c -> near_quat 53 1024 (/ 2 ^ 51) (rt target) p ->
     val 53 1024 (allowable_target_angle sv) tau' -> 0 <= tau' ->
     angle_between p (rt w) <= (1 + / 2 ^ 49) * tau' + (n + 1) * / 2 ^ 43).
Proof.
  intros F n HL Hc Hl Hlim Hst Hrun Hx Hj Hs Hn Ht.
  assert (Ek : forall k m, (Z.of_nat m = 53 - Z.of_nat k)%Z -> bpow radix2 (Z.of_nat k) * unit_roundoff 53 = / 2 ^ m).
  { intros k m E. rewrite <- two_pow_inv. unfold unit_roundoff. rewrite <- bpow_plus. f_equal. lia. }
  pose proof (Ek 2%nat 51%nat eq_refl) as Eu. pose proof (Ek 11%nat 42%nat eq_refl) as E42. pose proof (Ek 3%nat 50%nat eq_refl) as E50.
  pose proof (Ek 4%nat 49%nat eq_refl) as E49. pose proof (Ek 10%nat 43%nat eq_refl) as E43. rewrite !two_pow in *. clear Ek.
  replace (2 ^ 2) with 4 in * by ring. replace (2 ^ 11) with 2048 in * by ring. replace (2 ^ 3) with 8 in * by ring. replace (2 ^ 4) with 16 in * by ring.
  replace (2 ^ 10) with 1024 in * by ring.
  pose proof (u_small 53 ltac:(lia)) as [U0 U1]. assert (N0 : 0 <= n) by apply pos_INR.
  rewrite <- Eu in HL, Hs. rewrite <- Eu.
  destruct (C62_linear 53 1024 f64_ok f64_lt L t t' ovf la sv hf hr nx nx' arm target c s xs js tg p tau tau') as (w & R1 & Uw & HP & HO); try assumption; [lia| | |].
  - fold n. replace (2048 * n * unit_roundoff 53) with (n * (2048 * unit_roundoff 53)) by ring. rewrite E42.
    apply Rle_trans with (2 ^ 42 * / 2 ^ 42); [|lra]. apply Rmult_le_compat_r; [lra|exact Hn].
  - eapply Rle_trans; [exact Ht|]. rewrite <- two_pow. apply bpow_le. lia.
  - exists w. split; [exact R1|]. split; [exact Uw|]. fold n in HP, HO. split.
    + intros H1 H2. eapply Rle_trans; [exact (HP H1 H2)|]. rewrite <- E50, <- E42.
      pose proof (faint_le 53 1024 (Z.of_nat 484) ltac:(lia)) as Fa. rewrite two_pow_inv in Fa.
      assert (32 * tiny 1024 <= / 2 ^ 1000) by (rewrite <- two_pow_inv; unfold tiny; change 32 with (bpow radix2 5); rewrite <- bpow_plus; apply bpow_le; lia).
      assert (32 * n * tiny 1024 <= n * / 2 ^ 1000) by (replace (32 * n * tiny 1024) with (n * (32 * tiny 1024)) by ring; apply Rmult_le_compat_l; assumption).
      assert (2048 * n * unit_roundoff 53 * (total (map span js) + 32 * n * tiny 1024) <= n * (2048 * unit_roundoff 53) * (total (map span js) + n * / 2 ^ 1000)).
      { replace (n * (2048 * unit_roundoff 53)) with (2048 * n * unit_roundoff 53) by ring. apply Rmult_le_compat_l; [apply Rmult_le_pos; lra|lra]. }
      lra.
    + intros H1 H2 H3 H4 H5. eapply Rle_trans; [exact (HO H1 H2 H3 H4 H5)|]. rewrite <- E49, <- E43.
      pose proof (faint_le 53 1024 64 ltac:(lia)) as Fa.
      assert (bpow radix2 (Z.opp 64) = / 2048 * unit_roundoff 53) as E64.
      { unfold unit_roundoff. change (/ 2048) with (bpow radix2 (-11)). rewrite <- bpow_plus. reflexivity. }
      rewrite E64 in Fa. lra.
Qed.
Print Assumptions C62_f64.
(** in f32 *)
Theorem C62_f32 (L : libm) t t' ovf (la : linalg spec_float) (sv : solver spec_float)
    (hf : gmap nat (node spec_float)) (hr : gmap nat (node R)) nx nx' arm target c s xs js tg p tau tau' :
  let F := F32 L in let n := INR (length js) in
  libm_within 24 128 (/ 2 ^ 22) L ->
  chain_of hf (c_nodes arm) arm -> all_live hf (c_nodes arm) -> limits_ok (Sc := F) hf (c_movable arm) -> @start_ok _ F la hf arm c ->
  run t (solve_with_constraints (Sc := F) ovf la sv arm target c) (quiet hf nx) = Done (Ok tt) s ->
  joints_of (heap s) (c_nodes arm) xs -> joints_of hr (c_nodes arm) js -> Forall2 (stands_for 24 128 (/ 2 ^ 22)) xs js ->
  n <= 2 ^ 13 -> total (map span js) <= 2 ^ 120 ->
  exists w, run t' (end_transform arm) (quiet hr nx') = Done w (quiet hr nx') /\ unit_quat (rt w) /\
    (vval 24 128 (tr target) tg -> val 24 128 (allowable_target_distance sv) tau ->
     len (only_constrained c tg (tr w)) <=
       (1 + / 2 ^ 21) * tau + n * / 2 ^ 13 * (total (map span js) + n * / 2 ^ 120) + / 2 ^ 51) /\
    (atan2_within 24 128 (/ 2 ^ 22) L -> fully_oriented c -> near_quat 24 128 (/ 2 ^ 22) (rt target) p ->
     val 24 128 (allowable_target_angle sv) tau' -> 0 <= tau' ->
     angle_between p (rt w) <= (1 + / 2 ^ 20) * tau' + (n + 1) * / 2 ^ 14).
Proof.
  intros F n HL Hc Hl Hlim Hst Hrun Hx Hj Hs Hn Ht.
  assert (Ek : forall k m, (Z.of_nat m = 24 - Z.of_nat k)%Z -> bpow radix2 (Z.of_nat k) * unit_roundoff 24 = / 2 ^ m).
  { intros k m E. rewrite <- two_pow_inv. unfold unit_roundoff. rewrite <- bpow_plus. f_equal. lia. }
  pose proof (Ek 2%nat 22%nat eq_refl) as Eu. pose proof (Ek 11%nat 13%nat eq_refl) as E42. pose proof (Ek 3%nat 21%nat eq_refl) as E50.
  pose proof (Ek 4%nat 20%nat eq_refl) as E49. pose proof (Ek 10%nat 14%nat eq_refl) as E43. rewrite !two_pow in *. clear Ek.
  replace (2 ^ 2) with 4 in * by ring. replace (2 ^ 11) with 2048 in * by ring. replace (2 ^ 3) with 8 in * by ring. replace (2 ^ 4) with 16 in * by ring.
  replace (2 ^ 10) with 1024 in * by ring.
  pose proof (u_small 24 ltac:(lia)) as [U0 U1]. assert (N0 : 0 <= n) by apply pos_INR.
  rewrite <- Eu in HL, Hs. rewrite <- Eu.
  destruct (C62_linear 24 128 f32_ok f32_lt L t t' ovf la sv hf hr nx nx' arm target c s xs js tg p tau tau') as (w & R1 & Uw & HP & HO); try assumption; [lia| | |].
  - fold n. replace (2048 * n * unit_roundoff 24) with (n * (2048 * unit_roundoff 24)) by ring. rewrite E42.
    apply Rle_trans with (2 ^ 13 * / 2 ^ 13); [|lra]. apply Rmult_le_compat_r; [lra|exact Hn].
  - eapply Rle_trans; [exact Ht|]. rewrite <- two_pow. apply bpow_le. lia.
  - exists w. split; [exact R1|]. split; [exact Uw|]. fold n in HP, HO. split.
    + intros H1 H2. eapply Rle_trans; [exact (HP H1 H2)|]. rewrite <- E50, <- E42.
      pose proof (faint_le 24 128 (Z.of_nat 51) ltac:(lia)) as Fa. rewrite two_pow_inv in Fa.
      assert (32 * tiny 128 <= / 2 ^ 120) by (rewrite <- two_pow_inv; unfold tiny; change 32 with (bpow radix2 5); rewrite <- bpow_plus; apply bpow_le; lia).
      assert (32 * n * tiny 128 <= n * / 2 ^ 120) by (replace (32 * n * tiny 128) with (n * (32 * tiny 128)) by ring; apply Rmult_le_compat_l; assumption).
      assert (2048 * n * unit_roundoff 24 * (total (map span js) + 32 * n * tiny 128) <= n * (2048 * unit_roundoff 24) * (total (map span js) + n * / 2 ^ 120)).
      { replace (n * (2048 * unit_roundoff 24)) with (2048 * n * unit_roundoff 24) by ring. apply Rmult_le_compat_l; [apply Rmult_le_pos; lra|lra]. }
      lra.
    + intros H1 H2 H3 H4 H5. eapply Rle_trans; [exact (HO H1 H2 H3 H4 H5)|]. rewrite <- E49, <- E43.
      pose proof (faint_le 24 128 35 ltac:(lia)) as Fa.
      assert (bpow radix2 (Z.opp 35) = / 2048 * unit_roundoff 24) as E64.
      { unfold unit_roundoff. change (/ 2048) with (bpow radix2 (-11)). rewrite <- bpow_plus. reflexivity. }
      rewrite E64 in Fa. lra.
Qed.
Print Assumptions C62_f32.

(** ** five sliders on top of each other, moved to a total height of 7 without turning *)
Definition LA : libm := better_libm 53 1024.
Definition tower : list (joint spec_float) := map (fun x => lin_at x iso1) ["a"; "b"; "c"; "d"; "e"]%string.
Definition tower_heap {T} (js : list (joint T)) : gmap nat (node T) :=
  list_to_map (zip (seq 0 5) (zip_with (fun i j => of_joint j (match i with O => None | S i => Some i end) (if decide (i = 4)%nat then [] else [S i])) (seq 0 5) js)).
Definition tower_chain : chain := Chain (seq 0 5) (seq 0 5) 5.
(** height and all rotations are constrained *)
Definition upright : constraints := Constraints false false true true true true [].
Definition milli : spec_float := S754_finite false 4503599627370496 (-62).
Definition tower_solver : solver spec_float := Solver milli milli (f 1) 5 None.
Definition tower_la : linalg spec_float := Linalg (fun _ _ => None) (fun _ _ => Some [f 2; f 2; f 1; f 1; f 1]) (fun _ => None).
Definition ideal_tower : list (joint R) :=
  map (fun p => Joint "ideal" (Linear (V3 0 0 1)) p 0 None (Iso (V3 0 0 0) (Qt 0 0 0 1)) None None) [2; 2; 1; 1; 1].
Definition solved_tower : outcome spec_float (result spec_float unit) :=
  run 0 (solve_with_constraints (Sc := F64 LA) true tower_la tower_solver tower_chain (up 7) upright) (quiet (tower_heap tower) 5).
Definition left_joints : list (joint spec_float) :=
  match solved_tower with Done _ s => omap (fun a => n_joint <$> heap s !! a) (seq 0 5) | _ => [] end.

Lemma tower_solved : exists s, solved_tower = Done (Ok tt) s /\ joints_of (heap s) (seq 0 5) left_joints /\
  map j_position left_joints = [f 2; f 2; f 1; f 1; f 1] /\ map j_type left_joints = repeat (Linear z_axis) 5 /\
  map j_origin left_joints = repeat iso1 5.
Proof.
  assert (H : match solved_tower with Done (Ok tt) s => Forall (fun a => is_Some (heap s !! a)) (seq 0 5) | _ => False end).
  { vm_compute. repeat constructor; eexists; reflexivity. }
  unfold left_joints. destruct solved_tower as [[[]|e] s| | | |] eqn:E; try contradiction. exists s. split; [reflexivity|]. split.
  - clear E. unfold joints_of. induction H as [|a l [n Hn] H IH]; [constructor|]. cbn. rewrite Hn. cbn. constructor; [eauto|exact IH].
  - assert (E' : match solved_tower with Done _ s => 
       map j_position (omap (fun a => n_joint <$> heap s !! a) (seq 0 5)) = [f 2; f 2; f 1; f 1; f 1] /\
       map j_type (omap (fun a => n_joint <$> heap s !! a) (seq 0 5)) = repeat (Linear z_axis) 5 /\
       map j_origin (omap (fun a => n_joint <$> heap s !! a) (seq 0 5)) = repeat iso1 5 | _ => False end) by (vm_compute; repeat split).
    rewrite E in E'. exact E'.
Qed.
Lemma f_ok : val 53 1024 (f 0) 0 /\ val 53 1024 (f 1) 1 /\ val 53 1024 (f 2) 2 /\ val 53 1024 (f 7) 7 /\ val 53 1024 milli (/ 1024).
Proof.
  destruct z64_ok as (V0 & V1 & V2 & _). split; [exact V0|]. split; [exact V1|]. split; [exact V2|]. split.
  - split; [reflexivity|]. unfold f, SFofZ. replace (SpecFloat.binary_normalize 53 1024 7 0 false) with (S754_finite false 7881299347898368 (-50)) by reflexivity.
    cbn [sf_value cond_Zopp]. do 2 f_equal. change (bpow radix2 (-50)) with (/ 1125899906842624). field.
  - split; [reflexivity|]. cbn [sf_value milli cond_Zopp]. do 2 f_equal. change (bpow radix2 (-62)) with (/ 4611686018427387904). field.
Qed.
Lemma near_id d : 0 <= d -> near_quat 53 1024 d (@q1 _ EF) q1.
Proof.
  intros Hd. destruct f_ok as (V0 & V1 & _). split; [apply unit_q1|]. exists q1. rewrite qdist_self. split; [|exact Hd].
  split; [|split; [|split]]; assumption.
Qed.
Lemma tower_stands d : 0 <= d -> Forall2 (stands_for 53 1024 d) left_joints ideal_tower.
Proof.
  intros Hd. destruct tower_solved as (_ & _ & _ & Hpos & Hty & Ho). destruct f_ok as (V0 & V1 & V2 & _). pose proof (near_id d Hd) as Hq.
  unfold ideal_tower. destruct left_joints as [|j1 [|j2 [|j3 [|j4 [|j5 [|]]]]]]; try discriminate.
  injection Hpos as P1 P2 P3 P4 P5. injection Hty as T1 T2 T3 T4 T5. injection Ho as O1 O2 O3 O4 O5.
  assert (A : forall (j : joint spec_float) x r, j_position j = x -> j_type j = Linear z_axis -> j_origin j = iso1 -> val 53 1024 x r ->
    stands_for 53 1024 d j (Joint "ideal" (Linear (V3 0 0 1)) r 0 None (Iso (V3 0 0 0) (Qt 0 0 0 1)) None None)).
  { intros j x r Hp Ht Hor Hx. unfold stands_for. cbn [j_type j_position j_origin tr rt]. rewrite Hp, Ht, Hor. split; [|split; [exact Hx|split; [|exact Hq]]].
    - split; [unfold unit_axis; cbn; ring|]. exists (V3 0 0 1). rewrite dist_self. split; [|exact Hd]. split; [|split]; assumption.
    - split; [|split]; exact V0. }
  cbn [map]. repeat (constructor; [eapply A; eassumption|]). constructor.
Qed.
Example C62_case : exists s w, solved_tower = Done (Ok tt) s /\
  run 0 (end_transform tower_chain) (quiet (tower_heap ideal_tower) 5) = Done w (quiet (tower_heap ideal_tower) 5) /\
  Rabs (7 - vz (tr w)) <= / 1000 /\ angle_between q1 (rt w) <= / 1000.
Proof.
  destruct tower_solved as (s & Hs & Hj & _). destruct f_ok as (V0 & V1 & V2 & V7 & Vm).
  assert (E51 : / 2 ^ 51 = 4 * unit_roundoff 53) by (rewrite <- two_pow_inv; unfold unit_roundoff; change 4 with (bpow radix2 2); rewrite <- bpow_plus; reflexivity).
  pose proof (u_small 53 ltac:(lia)) as [U0 U1].
  destruct (C62_f64 LA 0 0 true tower_la tower_solver (tower_heap tower) (tower_heap ideal_tower) 5 5 tower_chain (up 7) upright s
    left_joints ideal_tower (V3 0 0 7) q1 (/ 1024) (/ 1024)) as (w & Hw & _ & HP & HO).
  - rewrite E51. intros x r Hx. destruct (better_libm_ok 53 1024 f64_ok f64_lt ltac:(lia) x r Hx) as [(a & Ha & Ea) (b & Hb & Eb)].
    split; [exists a|exists b]; (split; [assumption|lra]).
  - unfold chain_of. vm_compute. repeat split.
  - apply all_live_check. vm_compute. reflexivity.
  - apply limits_ok_check. vm_compute. reflexivity.
  - left. apply inside_check. vm_compute. reflexivity.
  - exact Hs.
  - exact Hj.
  - unfold joints_of. repeat (constructor; [eexists; split; reflexivity|]). constructor.
  - apply tower_stands. rewrite E51. lra.
  - cbn. lra.
  - unfold ideal_tower. cbn [map]. rewrite !total_cons. unfold span, extension. cbn [j_type j_origin j_position tr].
    unfold len, inner. cbn [vx vy vz]. replace (0 * 0 + 0 * 0 + 0 * 0) with 0 by ring. rewrite sqrt_0, (Rabs_pos_eq 1), (Rabs_pos_eq 2) by lra. cbn [total foldr].
    apply Rle_trans with (2 ^ 3); [lra|]. apply Rle_pow; [lra|lia].
  - exists s, w. split; [exact Hs|]. split; [exact Hw|].
    assert (Ht : total (map span ideal_tower) = 7).
    { unfold ideal_tower. cbn [map]. rewrite !total_cons. unfold span, extension. cbn [j_type j_origin j_position tr].
      unfold len, inner. cbn [vx vy vz]. replace (0 * 0 + 0 * 0 + 0 * 0) with 0 by ring. rewrite sqrt_0, (Rabs_pos_eq 1), (Rabs_pos_eq 2) by lra. cbn [total foldr]. ring. }
    rewrite Ht in HP. replace (INR (length ideal_tower)) with 5 in HP, HO by (cbn; ring).
    assert (I : forall k m, (m <= k)%nat -> / 2 ^ k <= / 2 ^ m) by (intros k m Hk; apply Rinv_le_contravar; [apply pow_lt; lra|apply Rle_pow; [lra|exact Hk]]).
    pose proof (I 1000%nat 1%nat ltac:(lia)) as I1. pose proof (I 484%nat 40%nat ltac:(lia)) as I2. 
    split.
    + assert (HP' := HP ltac:(split; [|split]; assumption) Vm). clear HP. unfold only_constrained, upright in HP'. cbn [position_x position_y position_z vx vy vz] in HP'.
      assert (5 * / 2 ^ 42 * (7 + 5 * / 2 ^ 1000) <= 5 * / 2 ^ 42 * (7 + 5)) by (apply Rmult_le_compat_l; lra).
      unfold len, inner in HP'. cbn [vx vy vz] in HP'. replace (0 * 0 + 0 * 0 + (7 - vz (tr w)) * (7 - vz (tr w))) with (Rsqr (7 - vz (tr w))) in HP' by (unfold Rsqr; ring).
      rewrite sqrt_Rsqr_abs in HP'. lra.
    + assert (HO' : angle_between q1 (rt w) <= (1 + / 2 ^ 49) * / 1024 + (5 + 1) * / 2 ^ 43).
      { apply HO; [|repeat split|apply near_id; rewrite E51; lra|exact Vm|lra].
        rewrite E51. intros x y r p R0 Hpp Hy Hx. destruct (better_atan2_ok 53 1024 f64_ok f64_lt ltac:(lia) x y r p R0 Hpp Hy Hx) as (a & Ha & Ea). exists a. split; [exact Ha|]. lra. }
      lra.
Qed.

(** a target whose rotation is not a number counts as reached: its rotation vector has no
    direction, and the code takes that for a zero rotation.  So a finite target is needed. *)
Theorem C62_nan_target_refuted :
  let nowhere := Iso (tr (up 7)) (Qt S754_nan S754_nan S754_nan S754_nan) in
  fully_oriented upright /\
  (fst <$> final (run 0 (solve_with_constraints (Sc := F64 LA) true tower_la tower_solver tower_chain nowhere upright) (quiet (tower_heap tower) 5))) = Some (Ok tt) /\
  (forall q, ~ qval 53 1024 (rt nowhere) q).
Proof. cbn zeta. split; [repeat split|]. split; [vm_compute; reflexivity|]. intros q [[_ H] _]. discriminate H. Qed.
Print Assumptions C62_nan_target_refuted.
