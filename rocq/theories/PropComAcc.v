(** * C73: the center of mass computed in floating point is accurate *)
From Coq Require Import Reals ZArith Lra Lia Psatz String Floats.SpecFloat.
From Flocq Require Import Core IEEE754.BinarySingleNaN.
From stdpp Require Import gmap.
From Verif Require Import Scalar ScalarR ScalarF Geometry Joint Link Prog NodeM ChainM FuncsM RunLemmas SpecValues SpecFloatErr FloatErr
  SpecNode SpecGraph SpecChain GraphProofs SpecFK SpecGeom RGeom GeomProofs SpecCom ComProofs SpecReach ReachProofs SpecAcc AccProofs AccProofs2 PropAcc
  SpecComAcc AccCom.
Local Open Scope R_scope.

(** C73: let the joints of a float tree stand for those of an ideal one as in C60, and let its
    links have the same masses and centers.  Masses are not negative and their sum [M] is
    positive.  No link is more than [D] joints or the length [l] from the root.  Then the
    computed center of mass is finite and equals the mean of the ideal link centers up to
    the error of the poses plus that of the sums over the links. *)
Theorem C73_center_of_mass prec emax (Hp : Prec_gt_0 prec) (Hm : Prec_lt_emax prec emax) (L : libm) a d
    (t : nat) (hf : gmap nat (node spec_float)) (hr : gmap nat (node R)) nx c D l cs :
  (11 <= prec)%Z -> 0 <= a -> 0 <= d -> libm_within prec emax d L -> stand_for prec emax a hf hr -> links_stand prec emax hf hr ->
  all_live hr (c_nodes c) -> parents_first hr (c_nodes c) -> link_centers hr (c_nodes c) cs ->
  Forall (fun mc => 0 <= fst mc) cs -> 0 < rsum fst cs -> links_within emax hr (c_nodes c) D l ->
  fits_com prec emax a d D l (length cs) (rsum fst cs) ->
  exists x s s' r, run t (@center_of_mass _ (FScalar prec emax L) c) (quiet hf nx) = Done x s /\
    run t (center_of_mass c) (quiet hr nx) = Done (mean cs) s' /\ vval prec emax x r /\
    dist r (mean cs) <= (swell prec a d D - 1) * l +
      32 * INR (S (length cs)) * unit_roundoff prec * (swell prec a d D * l + INR (length cs) * tiny emax / rsum fst cs).
Proof. intros Hprec Ha Hd HL Hs Hi. apply com_run_close; assumption. Qed.
Print Assumptions C73_center_of_mass.

(** in f64: the error is at most 2^-42 of the length per joint of the depth, and 2^-47 of the
    length per link *)
Theorem C73_f64 (L : libm) (t : nat) (hf : gmap nat (node spec_float)) (hr : gmap nat (node R)) nx c D l cs :
  let M := rsum fst cs in let n := INR (S (length cs)) in
  libm_within 53 1024 (/ 2 ^ 51) L -> stand_for 53 1024 (/ 2 ^ 51) hf hr -> links_stand 53 1024 hf hr ->
  all_live hr (c_nodes c) -> parents_first hr (c_nodes c) -> link_centers hr (c_nodes c) cs ->
  Forall (fun mc => 0 <= fst mc) cs -> 0 < M -> links_within 1024 hr (c_nodes c) D l ->
  INR (S D) <= 2 ^ 42 -> n <= 2 ^ 42 -> l <= 2 ^ 500 -> n * / 2 ^ 1000 <= M <= 2 ^ 500 ->
  exists x s s' r, run t (@center_of_mass _ (F64 L) c) (quiet hf nx) = Done x s /\
    run t (center_of_mass c) (quiet hr nx) = Done (mean cs) s' /\ vval 53 1024 x r /\
    dist r (mean cs) <= INR (S D) * / 2 ^ 42 * l + n * / 2 ^ 47 * (l + n * / 2 ^ 1000 / M).
Proof.
  intros M n HL Hs Hi Hl Hpf Hcs Hpos M0 Hw HD Hn Hl500 [HM1 HM2].
  assert (Ep : forall k, bpow radix2 (Z.of_nat k) = 2 ^ k) by (intros k; rewrite bpow_powerRZ; symmetry; apply pow_powerRZ).
  assert (Em : forall k, bpow radix2 (- Z.of_nat k) = / 2 ^ k) by (intros k; rewrite bpow_opp, Ep; reflexivity).
  assert (Eu : 4 * unit_roundoff 53 = / 2 ^ 51).
  { rewrite <- Em. unfold unit_roundoff. change 4 with (bpow radix2 2). rewrite <- bpow_plus. reflexivity. }
  assert (E42 : 2048 * unit_roundoff 53 = / 2 ^ 42).
  { rewrite <- Em. unfold unit_roundoff. change 2048 with (bpow radix2 11). rewrite <- bpow_plus. reflexivity. }
  assert (E47 : 64 * unit_roundoff 53 = / 2 ^ 47).
  { rewrite <- Em. unfold unit_roundoff. change 64 with (bpow radix2 6). rewrite <- bpow_plus. reflexivity. }
  rewrite <- Eu in HL, Hs. pose proof (u_small 53 ltac:(lia)) as [U0 U1]. set (u := unit_roundoff 53) in *.
  pose proof (growth_small 53 ltac:(lia)) as [G0 G1]. fold u in G0, G1.
  assert (D0 : 0 <= INR (S D)) by apply pos_INR. assert (n0 : 0 <= n) by apply pos_INR.
  assert (I42 : 2 ^ 42 * / 2 ^ 42 = 1) by lra.
  assert (Du : INR (S D) * (2048 * u) <= 1) by (rewrite E42, <- I42; apply Rmult_le_compat_r; lra).
  assert (nu : n * (2048 * u) <= 1) by (rewrite E42, <- I42; apply Rmult_le_compat_r; lra).
  assert (E8 : INR (8 * S D) = 8 * INR (S D)) by (rewrite mult_INR; cbn [INR]; ring).
  assert (W2 : swell 53 (4 * u) (4 * u) D <= 1 + 2048 * u * INR (S D)).
  { unfold swell. eapply Rle_trans; [apply (pow_incr _ (1 + 128 * u)); fold u; lra|]. eapply Rle_trans; [apply pow_bound; [lra|rewrite E8; lra]|]. rewrite E8. lra. }
  assert (W1 : 1 <= swell 53 (4 * u) (4 * u) D) by (apply pow_ge_1; fold u; lra).
  assert (mu0 : 0 < tiny 1024) by apply bpow_gt_0.
  assert (Hmu : tiny 1024 <= / 2 ^ 1000) by (rewrite <- Em; unfold tiny; apply bpow_le; lia).
  assert (Hnl : INR (length cs) <= n) by (unfold n; rewrite S_INR; lra). pose proof (pos_INR (length cs)) as nl0.
  assert (Hnt : INR (length cs) * tiny 1024 <= n * / 2 ^ 1000) by (apply Rmult_le_compat; lra).
  assert (l0 : -1 <= l \/ l < -1) by lra.
  assert (P500 : 1 <= 2 ^ 500) by (apply pow_R1_Rle; lra).
  destruct (C73_center_of_mass 53 1024 f64_ok f64_lt L (4 * u) (4 * u) t hf hr nx c D l cs) as (x & s & s' & r & R1 & R2 & Vr & Dr); try assumption; try lra; [lia| |].
  - split; [|split; [fold M; lra|fold n u; lra]]. fold M. set (W := swell 53 (4 * u) (4 * u) D) in *.
    apply Rle_trans with (60 * (2 * (2 ^ 500 + 1)) * (2 ^ 500 + 1)).
    + apply Rmult_le_compat_r; [lra|] || idtac. destruct l0 as [l0|l0].
      * apply Rmult_le_compat; try lra; [apply Rmult_le_pos; lra|]. rewrite Rmult_assoc. apply Rmult_le_compat_l; [lra|]. apply Rmult_le_compat; lra.
      * assert (0 <= W * (- (l + 1)) * (M + 1)) by (apply Rmult_le_pos; [apply Rmult_le_pos|]; lra).
        assert (0 <= 60 * (2 * (2 ^ 500 + 1)) * (2 ^ 500 + 1)) by (repeat apply Rmult_le_pos; lra). lra.
    + change 1024%Z with (Z.of_nat 1024). rewrite Ep. replace 1024%nat with (500 + 500 + 24)%nat by lia. rewrite !pow_add.
      set (X := 2 ^ 500) in *. clearbody X. assert (X * 1 <= X * X) by (apply Rmult_le_compat_l; lra). assert (1 <= X * X) by lra.
      assert (500 * (X * X) <= X * X * 2 ^ 24) by (rewrite (Rmult_comm (X * X)); apply Rmult_le_compat_r; lra). lra.
  - exists x, s, s', r. split; [exact R1|]. split; [exact R2|]. split; [exact Vr|]. fold M n u in Dr.
    set (W := swell 53 (4 * u) (4 * u) D) in *.
    assert (lp : 0 <= l).
    { destruct (Rle_or_lt 0 l) as [|Hneg]; [assumption|exfalso].
      clear - Hw Hcs M0 Hneg. unfold M in M0. induction Hcs as [|a k cs n Hn Hl H IH|a k cs n lk w Hn Hl Hwd H IH].
      - rewrite rsum_nil in M0. lra.
      - apply IH; [exact M0|]. intros b m lk p js Hb. apply Hw. set_solver.
      - pose proof Hwd as (p & ts & Pp & Tp & _).
        assert (Hlive : all_live hr (rev p)).
        { intros e He. apply elem_of_list_lookup in He as [i He]. destruct (Forall2_lookup_l _ _ _ _ _ Tp He) as (? & _ & m & Hm' & _). eauto. }
        destruct (joints_exist hr (rev p) Hlive) as [js Hjs].
        destruct (Hw a n lk p js ltac:(set_solver) Hn Hl Pp Hjs) as [_ Hlen]. unfold lost in Hlen.
        assert (R0 : 0 <= reach 1024 js) by (rewrite <- (slack_reach 1024 js); apply (slack_pos 53 1024 f64_lt ltac:(lia))).
        pose proof (len_nonneg (tr (in_origin (l_inertial lk)))). assert (0 < tiny 1024) by apply bpow_gt_0. lra. }
    assert (iM : 0 < / M) by (apply Rinv_0_lt_compat, M0).
    assert (Q : INR (length cs) * tiny 1024 / M <= n * / 2 ^ 1000 / M) by (apply Rmult_le_compat_r; lra).
    assert (Q0 : 0 <= INR (length cs) * tiny 1024 / M) by (apply Rmult_le_pos; [apply Rmult_le_pos|]; lra).
    eapply Rle_trans; [exact Dr|]. apply Rplus_le_compat.
    + apply Rmult_le_compat_r; [exact lp|]. rewrite <- E42. lra.
    + rewrite <- E47. replace (n * (64 * u) * (l + n * / 2 ^ 1000 / M)) with (32 * n * u * (2 * (l + n * / 2 ^ 1000 / M))) by ring.
      apply Rmult_le_compat_l; [repeat apply Rmult_le_pos; lra|].
      assert (W * l <= 2 * l) by (apply Rmult_le_compat_r; lra). lra.
Qed.
Print Assumptions C73_f64.

(** ** the turntable of C60 with a body of mass 1 on the table and one of mass 3 on the telescope *)
Definition weight {T} `{Scalar T} (m x : T) : link T := Link "body" (Inertial (Iso (V3 x szero szero) q1) m mat3_id None) [] [].
Definition loaded {T} `{Scalar T} (z1 z2 z3 : T) : gmap nat (node T) :=
  match table z1 z2 z3 with
  | [a; b] => <[0%nat := Node None [1%nat] a None [] None (Some (weight z1 szero))]>
                (<[1%nat := Node (Some 0%nat) [] b None [] None (Some (weight z3 z1))]> ∅)
  | _ => ∅
  end.
Lemma loaded_links : links_stand 53 1024 (@loaded _ (F64 L64) (z64 1) (z64 2) (z64 3)) (loaded 1 2 3).
Proof.
  destruct z64_ok as (V0 & V1 & V2 & V3'). intros a x y Hx Hy. destruct a as [|[|a]].
  - apply Some_inj in Hx as <-. apply Some_inj in Hy as <-. split; [exact V1|]. hnf. auto.
  - apply Some_inj in Hx as <-. apply Some_inj in Hy as <-. split; [exact V3'|]. hnf. auto.
  - unfold loaded, table in Hy. rewrite !lookup_insert_ne, lookup_empty in Hy by lia. discriminate.
Qed.
Lemma loaded_path0 : path_up (loaded 1 2 3) 0 [0%nat].
Proof. apply path_root. split; [eexists; reflexivity|]. intros p [(n & Hn & E) _]. apply Some_inj in Hn as <-. discriminate. Qed.
Lemma loaded_path1 : path_up (loaded 1 2 3) 1 [1%nat; 0%nat].
Proof. eapply path_step; [|apply loaded_path0]. split; [eexists; split; reflexivity|eexists; reflexivity]. Qed.
Lemma loaded_joints0 js : joints_of (loaded 1 2 3) [0%nat] js -> js = take 1 (table 1 2 3).
Proof. intros H. inversion H as [|? ? ? ? (n & Hn & E) H']; subst. inversion H'; subst. apply Some_inj in Hn as <-. reflexivity. Qed.
Lemma loaded_joints1 js : joints_of (loaded 1 2 3) [0%nat; 1%nat] js -> js = table 1 2 3.
Proof.
  intros H. inversion H as [|? ? ? ? (n & Hn & E) H']; subst. inversion H' as [|? ? ? ? (n' & Hn' & E') H'']; subst. inversion H''; subst.
  apply Some_inj in Hn as <-. apply Some_inj in Hn' as <-. reflexivity.
Qed.
Lemma len_x x : 0 <= x -> len (V3 x 0 0) = x.
Proof. intros Hx. unfold len, inner. cbn [vx vy vz]. replace (x * x + 0 * 0 + 0 * 0) with (x * x) by ring. apply sqrt_square, Hx. Qed.
Lemma lost_small : lost 1024 <= / 8.
Proof.
  unfold lost, tiny. change 32 with (bpow radix2 5). rewrite <- bpow_plus. change (/ 8) with (bpow radix2 (-3)). apply bpow_le. lia.
Qed.
Lemma loaded_within : links_within 1024 (loaded 1 2 3) [0%nat; 1%nat] 2 8.
Proof.
  pose proof lost_small as H8.
  assert (S1 : span (jt "turn" (Rotational (V3 0 0 1)) (V3 0 0 1) 1) = 1).
  { unfold span, extension, jt. cbn [j_type j_origin j_position tr]. unfold len, inner. cbn [vx vy vz].
    replace (0 * 0 + 0 * 0 + 1 * 1) with (1 * 1) by ring. rewrite sqrt_square by lra. ring. }
  assert (S2 : span (jt "slide" (Linear (V3 1 0 0)) (V3 3 0 0) 2) = 5).
  { unfold span, extension, jt. cbn [j_type j_origin j_position tr]. rewrite len_x by lra. rewrite Rabs_pos_eq by lra. ring. }
  intros a n lk p js Ha Hn Hl Hp Hjs. apply elem_of_cons in Ha as [->|Ha].
  - apply Some_inj in Hn as <-. apply Some_inj in Hl as <-. rewrite (path_up_fun _ _ _ Hp _ loaded_path0) in Hjs. apply loaded_joints0 in Hjs as ->.
    split; [cbn; lia|]. unfold reach, table. cbn [take map l_inertial weight in_origin tr]. rewrite total_cons.
    change (total []) with 0. change (@szero R RScalar) with 0. change (@sone R RScalar) with 1. rewrite S1, len_x by lra. cbn [length INR]. lra.
  - apply elem_of_list_singleton in Ha as ->. apply Some_inj in Hn as <-. apply Some_inj in Hl as <-.
    rewrite (path_up_fun _ _ _ Hp _ loaded_path1) in Hjs. apply loaded_joints1 in Hjs as ->.
    split; [cbn; lia|]. unfold reach, table. cbn [map l_inertial weight in_origin tr]. rewrite !total_cons.
    change (total []) with 0. change (@szero R RScalar) with 0. change (@sone R RScalar) with 1. rewrite S1, S2, len_x by lra. cbn [length INR]. lra.
Qed.
(** the computed center of mass of this robot is right to 10^-11 m *)
Example C73_case (t nx : nat) : exists x s s' r m,
  run t (@center_of_mass _ (F64 L64) table_chain) (quiet (@loaded _ (F64 L64) (z64 1) (z64 2) (z64 3)) nx) = Done x s /\
  run t (center_of_mass table_chain) (quiet (loaded 1 2 3) nx) = Done m s' /\ vval 53 1024 x r /\ dist r m < / 100000000000.
Proof.
  assert (Hw : exists w0 w1, world (loaded 1 2 3) 0 w0 /\ world (loaded 1 2 3) 1 w1).
  { eexists _, _. split; [exists [0%nat]|exists [1%nat; 0%nat]]; (eexists; split; [apply loaded_path0 || apply loaded_path1|]; split; [|reflexivity]);
      repeat (constructor; [eexists; split; reflexivity|]); constructor. }
  destruct Hw as (w0 & w1 & Hw0 & Hw1).
  set (cs := [(in_mass (l_inertial (weight 1 0)), move w0 (tr (in_origin (l_inertial (weight 1 0)))));
              (in_mass (l_inertial (weight 3 1)), move w1 (tr (in_origin (l_inertial (weight 3 1)))))]).
  assert (Hc : link_centers (loaded 1 2 3) [0%nat; 1%nat] cs).
  { apply (lc_link (loaded 1 2 3) 0%nat _ _ (Node None [1%nat] (jt "turn" (Rotational (V3 0 0 1)) (V3 0 0 1) 1) None [] None (Some (weight 1 0)))); [reflexivity|reflexivity|exact Hw0|].
    apply (lc_link (loaded 1 2 3) 1%nat _ _ (Node (Some 0%nat) [] (jt "slide" (Linear (V3 1 0 0)) (V3 3 0 0) 2) None [] None (Some (weight 3 1)))); [reflexivity|reflexivity|exact Hw1|]. constructor. }
  assert (EM : rsum fst cs = 4) by (unfold cs; rewrite !rsum_cons, rsum_nil; cbn [fst weight l_inertial in_mass]; ring).
  assert (H1000 : 0 < / 2 ^ 1000 <= / 2 ^ 3).
  { split; [apply Rinv_0_lt_compat, pow_lt; lra|]. apply Rinv_le_contravar; [lra|apply Rle_pow; [lra|lia]]. }
  assert (H500 : 2 ^ 3 <= 2 ^ 500) by (apply Rle_pow; [lra|lia]).
  destruct (C73_f64 L64 t (@loaded _ (F64 L64) (z64 1) (z64 2) (z64 3)) (loaded 1 2 3) nx table_chain 2 8 cs) as (x & s & s' & r & R1 & R2 & Vr & Dr).
  - intros x r Hx. destruct (good_libm_ok 53 1024 f64_ok f64_lt ltac:(lia) x r Hx) as [(s & Hs & Es) (c & Hc' & Ec)].
    assert (2 * unit_roundoff 53 <= / 2 ^ 51) by (change (unit_roundoff 53) with (/ 9007199254740992); lra).
    split; [exists s|exists c]; (split; [assumption|lra]).
  - intros a. pose proof (table_stands (/ 2 ^ 51) ltac:(lra)) as H. unfold loaded, table in *.
    apply Forall2_cons in H as [Ha H]. apply Forall2_cons in H as [Hb _].
    destruct a as [|[|a]]; [split; [reflexivity|exact Ha]|split; [reflexivity|exact Hb]|].
    rewrite !lookup_insert_ne, !lookup_empty by lia. exact I.
  - apply loaded_links.
  - intros a Ha. cbn in Ha. apply elem_of_cons in Ha as [->|Ha]; [eexists; reflexivity|]. apply elem_of_list_singleton in Ha as ->. eexists; reflexivity.
  - intros l1 a l2 p E [(n & Hn & Hp) _]. destruct l1 as [|b [|b' l1]]; cbn in E; [| |destruct l1; discriminate]; injection E; intros; subst; cbn in Hn;
      injection Hn as <-; cbn in Hp; [discriminate|]. injection Hp as <-. apply elem_of_list_here.
  - exact Hc.
  - repeat (constructor; [cbn; lra|]). constructor.
  - rewrite EM. lra.
  - apply loaded_within.
  - cbn [INR]. lra.
  - cbn [length cs INR]. lra.
  - lra.
  - rewrite EM. cbn [length cs INR]. lra.
  - exists x, s, s', r, (mean cs). split; [exact R1|]. split; [exact R2|]. split; [exact Vr|]. rewrite EM in Dr. cbn [length cs INR] in Dr.
    eapply Rle_lt_trans; [exact Dr|].
    apply Rle_lt_trans with ((1 + 1 + 1) * / 2 ^ 42 * 8 + (1 + 1 + 1) * / 2 ^ 47 * (8 + (1 + 1 + 1) * / 2 ^ 3 / 4)); [|lra].
    apply Rplus_le_compat_l, Rmult_le_compat_l; lra.
Qed.
