(** * C60: forward kinematics in floating point is accurate *)
From Coq Require Import Reals ZArith Lra Lia Psatz String Floats.SpecFloat.
From Flocq Require Import Core IEEE754.BinarySingleNaN.
From stdpp Require Import gmap.
From Verif Require Import Scalar ScalarR ScalarF Geometry Joint Link Prog NodeM ChainM RunLemmas SpecValues SpecFloatErr FloatErr
  SpecNode SpecGraph SpecChain GraphProofs ChainProofs SpecFK FKProofs SpecGeom RGeom GeomProofs SpecReach ReachProofs SpecAcc AccProofs AccProofs2.
Local Open Scope R_scope.

(** C60: let the joints of a float arm stand for those of an ideal arm (axes and origin
    rotations up to [a]) and let the libm be right up to [d].  Then the computed end
    transform is finite and within the accumulated relative error of the ideal one. *)
Theorem C60_end_transform prec emax (Hp : Prec_gt_0 prec) (Hm : Prec_lt_emax prec emax) (L : libm) a d
    (t : nat) (hf : gmap nat (node spec_float)) (hr : gmap nat (node R)) nx c xs js :
  (11 <= prec)%Z -> 0 <= a -> 0 <= d -> libm_within prec emax d L ->
  joints_of hf (c_nodes c) xs -> joints_of hr (c_nodes c) js -> Forall2 (stands_for prec emax a) xs js ->
  fits prec emax a d js ->
  exists x w, run t (@end_transform _ (FScalar prec emax L) c) (quiet hf nx) = Done x (quiet hf nx) /\
    run t (end_transform c) (quiet hr nx) = Done w (quiet hr nx) /\ close prec emax a d js x w.
Proof.
  intros Hprec Ha Hd HL Hx Hj Hs Hf.
  eexists _, _. split; [apply (@run_end_joints _ (FScalar prec emax L) t hf nx c xs Hx)|].
  split; [apply run_end_joints, Hj|]. apply product_close; assumption.
Qed.
Print Assumptions C60_end_transform.

(** C60: likewise for every node of a tree, after [update_transforms]; the error depends on
    the joints between the root and the node. *)
Theorem C60_update_transforms prec emax (Hp : Prec_gt_0 prec) (Hm : Prec_lt_emax prec emax) (L : libm) a d
    (t : nat) (hf : gmap nat (node spec_float)) (hr : gmap nat (node R)) nx c :
  (11 <= prec)%Z -> 0 <= a -> 0 <= d -> libm_within prec emax d L -> stand_for prec emax a hf hr ->
  all_live hr (c_nodes c) -> parents_first hr (c_nodes c) ->
  exists xs ws s s', run t (@update_transforms _ (FScalar prec emax L) c) (quiet hf nx) = Done xs s /\
    run t (update_transforms c) (quiet hr nx) = Done ws s' /\
    forall i b x w, c_nodes c !! i = Some b -> xs !! i = Some x -> ws !! i = Some w ->
      exists l js, path_up hr b l /\ joints_of hr (rev l) js /\ (fits prec emax a d js -> close prec emax a d js x w).
Proof.
  intros Hprec Ha Hd HL Hs Hl Hpf.
  destruct (@update_transforms_lemma _ (FScalar prec emax L) t hf nx c (stand_all_live _ _ _ _ _ Hs _ Hl) (stand_parents_first _ _ _ _ _ Hs _ Hpf))
    as (xs & h1 & R1 & W1 & _).
  destruct (update_transforms_lemma t hr nx c Hl Hpf) as (ws & h2 & R2 & W2 & _).
  exists xs, ws, (quiet h1 nx), (quiet h2 nx). split; [exact R1|]. split; [exact R2|].
  intros i b x w Hb Hx Hw.
  destruct (Forall2_lookup_lr _ _ _ _ _ _ W1 Hb Hx) as (l1 & ts1 & P1 & T1 & ->).
  destruct (Forall2_lookup_lr _ _ _ _ _ _ W2 Hb Hw) as (l & ts & P2 & T2 & ->).
  assert (l1 = l) as -> by (eapply path_up_fun; [exact P1|eapply stand_path; eauto]).
  assert (Hlive : all_live hr (rev l)).
  { intros e He. apply elem_of_list_lookup in He as [k Hk]. destruct (Forall2_lookup_l _ _ _ _ _ T2 Hk) as (? & _ & n & Hn & _). eauto. }
  destruct (joints_exist hr (rev l) Hlive) as [js Hjs].
  destruct (stand_joints _ _ _ _ _ Hs _ _ Hjs) as (ys & Hys & Hyj).
  exists l, js. split; [exact P2|]. split; [exact Hjs|]. intros Hf.
  rewrite (locals_joints _ _ _ T2 _ Hjs), (@locals_joints _ (FScalar prec emax L) _ _ _ T1 _ Hys). apply product_close; assumption.
Qed.
Print Assumptions C60_update_transforms.

(** ** in numbers *)
Lemma growth_small prec : (11 <= prec)%Z -> 1 <= growth prec (4 * unit_roundoff prec) (4 * unit_roundoff prec) <= 1 + 128 * unit_roundoff prec.
Proof.
  intros H. pose proof (u_small prec H) as [U0 U1]. unfold growth. set (e := 4 * unit_roundoff prec).
  replace (32 * unit_roundoff prec) with (8 * e) by (unfold e; ring). replace (128 * unit_roundoff prec) with (32 * e) by (unfold e; ring).
  assert (0 < e <= / 512) as [E0 E1] by (unfold e; lra).
  assert (F : forall y, 0 <= y -> e * y <= / 512 * y) by (intros y Hy; apply Rmult_le_compat_r; lra).
  assert (P : forall y, 0 <= y -> 0 <= e * y) by (intros y Hy; apply Rmult_le_pos; lra).
  pose proof (P e ltac:(lra)) as P2. pose proof (P _ P2) as P3. pose proof (P _ P3) as P4. pose proof (P _ P4) as P5.
  pose proof (P _ P5) as P6. pose proof (P _ P6) as P7.
  pose proof (F e ltac:(lra)). pose proof (F _ P2). pose proof (F _ P3). pose proof (F _ P4). pose proof (F _ P5). pose proof (F _ P6).
  split; [|].
  - assert (1 <= (1 + e) ^ 2) by lra. assert (1 <= (1 + 8 * e) ^ 3) by lra.
    assert (1 * 1 <= (1 + e) ^ 2 * (1 + e) ^ 2) by (apply Rmult_le_compat; lra).
    assert (1 * 1 <= (1 + e) ^ 2 * (1 + e) ^ 2 * (1 + 8 * e) ^ 3) by (apply Rmult_le_compat; lra). lra.
  - lra.
Qed.
Lemma total_pos js : 0 <= total (map span js).
Proof. induction js as [|j js IH]; [cbn; lra|]. cbn [map]. rewrite total_cons. pose proof (span_pos j). lra. Qed.
(** with axes, rotations, sines and cosines right to four units of roundoff, the error is at most
    2048 units of roundoff per joint, relative to the length of the arm; the rotation's error is
    at most 256 units per joint *)
Theorem C60_linear prec emax (Hp : Prec_gt_0 prec) (Hm : Prec_lt_emax prec emax) (L : libm)
    (t : nat) (hf : gmap nat (node spec_float)) (hr : gmap nat (node R)) nx c xs js :
  let u := unit_roundoff prec in let n := INR (length js) in
  (11 <= prec)%Z -> libm_within prec emax (4 * u) L ->
  joints_of hf (c_nodes c) xs -> joints_of hr (c_nodes c) js -> Forall2 (stands_for prec emax (4 * u)) xs js ->
  2048 * n * u <= 1 -> total (map span js) <= bpow radix2 (emax - 8) ->
  exists x w r, run t (@end_transform _ (FScalar prec emax L) c) (quiet hf nx) = Done x (quiet hf nx) /\
    run t (end_transform c) (quiet hr nx) = Done w (quiet hr nx) /\ ival prec emax x r /\
    qdist (rt r) (rt w) <= 256 * n * u /\
    dist (tr r) (tr w) <= 2048 * n * u * (total (map span js) + 32 * n * tiny emax).
Proof.
  intros u n Hprec HL Hx Hj Hs Hn Ht. pose proof (u_small prec Hprec) as [U0 U1]. pose proof (mu_small prec emax Hm Hprec) as [M0 M1].
  fold u in U0, U1. pose proof (growth_small prec Hprec) as [G0 G1]. fold u in G0, G1. set (G := growth prec (4 * u) (4 * u)) in *.
  assert (N0 : 0 <= n) by apply pos_INR.
  assert (N1 : 0 <= n * u) by (apply Rmult_le_pos; lra).
  assert (B1 : G ^ length js <= 1 + 256 * n * u).
  { eapply Rle_trans; [apply (pow_incr _ (1 + 128 * u)); lra|]. eapply Rle_trans; [apply pow_bound; [lra|fold n; lra]|]. fold n. lra. }
  assert (En : INR (8 * length js) = 8 * n) by (rewrite mult_INR; cbn; fold n; ring).
  assert (B8 : G ^ (8 * length js) <= 1 + 2048 * n * u).
  { eapply Rle_trans; [apply (pow_incr _ (1 + 128 * u)); lra|].
    eapply Rle_trans; [apply pow_bound; [lra|rewrite En; lra]|]. rewrite En. lra. }
  pose proof (pow_ge_1 G (8 * length js) ltac:(lra)) as G8. pose proof (total_pos js) as T0.
  assert (Mu : tiny emax <= 2 * u).
  { unfold tiny, u, unit_roundoff. replace (2 * bpow radix2 (- prec)) with (bpow radix2 (1 + - prec)) by (rewrite bpow_plus; reflexivity). apply bpow_le. red in Hm. lia. }
  assert (N2 : n * tiny emax <= n * (2 * u)) by (apply Rmult_le_compat_l; lra).
  assert (N3 : 0 <= n * tiny emax) by (apply Rmult_le_pos; lra).
  assert (Er : reach emax js = total (map span js) + 32 * n * tiny emax) by (unfold reach, lost; fold n; ring).
  assert (Hfit : fits prec emax (4 * u) (4 * u) js).
  { unfold fits. fold G. rewrite Er.
    assert (G ^ (8 * length js) * (total (map span js) + 32 * n * tiny emax + 1) <= 2 * (bpow radix2 (emax - 8) + 2)) by (apply Rmult_le_compat; lra).
    assert (E8 : bpow radix2 emax = 256 * bpow radix2 (emax - 8)).
    { change 256 with (bpow radix2 8). rewrite <- bpow_plus. f_equal. lia. }
    assert (16 <= bpow radix2 (emax - 8)) by (change 16 with (bpow radix2 4); apply bpow_le; red in Hm; lia). lra. }
  destruct (C60_end_transform prec emax Hp Hm L (4 * u) (4 * u) t hf hr nx c xs js) as (x & w & R1 & R2 & r & Hr & Hq & Hd); try assumption; try lra.
  exists x, w, r. repeat (split; [assumption|]). fold G in Hq, Hd. rewrite Er in Hd. split; [lra|].
  eapply Rle_trans; [exact Hd|]. apply Rmult_le_compat_r; lra.
Qed.
Print Assumptions C60_linear.

Definition f64_ok : Prec_gt_0 53 := eq_refl.
Definition f64_lt : Prec_lt_emax 53 1024 := eq_refl.
Definition f32_ok : Prec_gt_0 24 := eq_refl.
Definition f32_lt : Prec_lt_emax 24 128 := eq_refl.
(** in f64: 2^-42 of the arm's length per joint, up to 2^42 joints *)
Theorem C60_f64 (L : libm) (t : nat) (hf : gmap nat (node spec_float)) (hr : gmap nat (node R)) nx c xs js :
  let n := INR (length js) in
  libm_within 53 1024 (/ 2 ^ 51) L ->
  joints_of hf (c_nodes c) xs -> joints_of hr (c_nodes c) js -> Forall2 (stands_for 53 1024 (/ 2 ^ 51)) xs js ->
  n <= 2 ^ 42 -> total (map span js) <= 2 ^ 1000 ->
  exists x w r, run t (@end_transform _ (F64 L) c) (quiet hf nx) = Done x (quiet hf nx) /\
    run t (end_transform c) (quiet hr nx) = Done w (quiet hr nx) /\ ival 53 1024 x r /\
    qdist (rt r) (rt w) <= n * / 2 ^ 45 /\ dist (tr r) (tr w) <= n * / 2 ^ 42 * (total (map span js) + n * / 2 ^ 1000).
Proof.
  intros n HL Hx Hj Hs Hn Ht.
  assert (Ep : forall k, bpow radix2 (Z.of_nat k) = 2 ^ k) by (intros k; rewrite bpow_powerRZ; symmetry; apply pow_powerRZ).
  assert (Em : forall k, bpow radix2 (- Z.of_nat k) = / 2 ^ k) by (intros k; rewrite bpow_opp, Ep; reflexivity).
  assert (Eu : 4 * unit_roundoff 53 = / 2 ^ 51).
  { rewrite <- Em. unfold unit_roundoff. change 4 with (bpow radix2 2). rewrite <- bpow_plus. reflexivity. }
  assert (E42 : 2048 * unit_roundoff 53 = / 2 ^ 42).
  { rewrite <- Em. unfold unit_roundoff. change 2048 with (bpow radix2 11). rewrite <- bpow_plus. reflexivity. }
  assert (E45 : 256 * unit_roundoff 53 = / 2 ^ 45).
  { rewrite <- Em. unfold unit_roundoff. change 256 with (bpow radix2 8). rewrite <- bpow_plus. reflexivity. }
  rewrite <- Eu in HL, Hs. assert (N0 : 0 <= n) by apply pos_INR.
  destruct (C60_linear 53 1024 f64_ok f64_lt L t hf hr nx c xs js) as (x & w & r & R1 & R2 & Hr & Hq & Hd); try assumption; [lia| | |].
  - fold n. replace (2048 * n * unit_roundoff 53) with (n * (2048 * unit_roundoff 53)) by ring. rewrite E42.
    apply Rle_trans with (2 ^ 42 * / 2 ^ 42); [|lra]. apply Rmult_le_compat_r; [lra|exact Hn].
  - eapply Rle_trans; [exact Ht|]. rewrite <- Ep. apply bpow_le. lia.
  - fold n in Hq, Hd. replace (256 * n * unit_roundoff 53) with (n * / 2 ^ 45) in Hq by (rewrite <- E45; ring).
    replace (2048 * n * unit_roundoff 53) with (n * / 2 ^ 42) in Hd by (rewrite <- E42; ring).
    exists x, w, r. repeat (split; [assumption|]). eapply Rle_trans; [exact Hd|].
    apply Rmult_le_compat_l; [apply Rmult_le_pos; lra|]. apply Rplus_le_compat_l.
    replace (32 * n * tiny 1024) with (n * (32 * tiny 1024)) by ring. apply Rmult_le_compat_l; [exact N0|].
    rewrite <- Em. unfold tiny. change 32 with (bpow radix2 5). rewrite <- bpow_plus. apply bpow_le. lia.
Qed.
Print Assumptions C60_f64.
(** in f32: 2^-13 of the arm's length per joint, up to 2^13 joints *)
Theorem C60_f32 (L : libm) (t : nat) (hf : gmap nat (node spec_float)) (hr : gmap nat (node R)) nx c xs js :
  let n := INR (length js) in
  libm_within 24 128 (/ 2 ^ 22) L ->
  joints_of hf (c_nodes c) xs -> joints_of hr (c_nodes c) js -> Forall2 (stands_for 24 128 (/ 2 ^ 22)) xs js ->
  n <= 2 ^ 13 -> total (map span js) <= 2 ^ 120 ->
  exists x w r, run t (@end_transform _ (F32 L) c) (quiet hf nx) = Done x (quiet hf nx) /\
    run t (end_transform c) (quiet hr nx) = Done w (quiet hr nx) /\ ival 24 128 x r /\
    qdist (rt r) (rt w) <= n * / 2 ^ 16 /\ dist (tr r) (tr w) <= n * / 2 ^ 13 * (total (map span js) + n * / 2 ^ 120).
Proof.
  intros n HL Hx Hj Hs Hn Ht.
  assert (Ep : forall k, bpow radix2 (Z.of_nat k) = 2 ^ k) by (intros k; rewrite bpow_powerRZ; symmetry; apply pow_powerRZ).
  assert (Em : forall k, bpow radix2 (- Z.of_nat k) = / 2 ^ k) by (intros k; rewrite bpow_opp, Ep; reflexivity).
  assert (Eu : 4 * unit_roundoff 24 = / 2 ^ 22).
  { rewrite <- Em. unfold unit_roundoff. change 4 with (bpow radix2 2). rewrite <- bpow_plus. reflexivity. }
  assert (E42 : 2048 * unit_roundoff 24 = / 2 ^ 13).
  { rewrite <- Em. unfold unit_roundoff. change 2048 with (bpow radix2 11). rewrite <- bpow_plus. reflexivity. }
  assert (E45 : 256 * unit_roundoff 24 = / 2 ^ 16).
  { rewrite <- Em. unfold unit_roundoff. change 256 with (bpow radix2 8). rewrite <- bpow_plus. reflexivity. }
  rewrite <- Eu in HL, Hs. assert (N0 : 0 <= n) by apply pos_INR.
  destruct (C60_linear 24 128 f32_ok f32_lt L t hf hr nx c xs js) as (x & w & r & R1 & R2 & Hr & Hq & Hd); try assumption; [lia| | |].
  - fold n. replace (2048 * n * unit_roundoff 24) with (n * (2048 * unit_roundoff 24)) by ring. rewrite E42.
    apply Rle_trans with (2 ^ 13 * / 2 ^ 13); [|lra]. apply Rmult_le_compat_r; [lra|exact Hn].
  - eapply Rle_trans; [exact Ht|]. rewrite <- Ep. apply bpow_le. lia.
  - fold n in Hq, Hd. replace (256 * n * unit_roundoff 24) with (n * / 2 ^ 16) in Hq by (rewrite <- E45; ring).
    replace (2048 * n * unit_roundoff 24) with (n * / 2 ^ 13) in Hd by (rewrite <- E42; ring).
    exists x, w, r. repeat (split; [assumption|]). eapply Rle_trans; [exact Hd|].
    apply Rmult_le_compat_l; [apply Rmult_le_pos; lra|]. apply Rplus_le_compat_l.
    replace (32 * n * tiny 128) with (n * (32 * tiny 128)) by ring. apply Rmult_le_compat_l; [exact N0|].
    rewrite <- Em. unfold tiny. change 32 with (bpow radix2 5). rewrite <- bpow_plus. apply bpow_le. lia.
Qed.
Print Assumptions C60_f32.

(** ** a turntable with a telescope: one metre up, turning about z; three metres out and
    sliding along x *)
Definition of_joint {T} (j : joint T) p cs : node T := Node p cs j None [] None None.
Definition jt {T} `{Scalar T} (name : string) (ty : joint_type T) (o : vec3 T) (p : T) : joint T :=
  Joint name ty p szero None (Iso o q1) None None.
Definition table {T} `{Scalar T} (z1 z2 z3 : T) : list (joint T) :=
  [jt "turn" (Rotational (V3 szero szero sone)) (V3 szero szero z1) z1;
   jt "slide" (Linear (V3 sone szero szero)) (V3 z3 szero szero) z2].
Definition table_heap {T} `{Scalar T} (z1 z2 z3 : T) : gmap nat (node T) :=
  match table z1 z2 z3 with
  | [a; b] => <[0%nat := of_joint a None [1%nat]]> (<[1%nat := of_joint b (Some 0%nat) []]> ∅)
  | _ => ∅
  end.
Definition table_chain : chain := Chain [0%nat; 1%nat] [0%nat; 1%nat] 2.
Definition L64 : libm := good_libm 53 1024.
Definition z64 (z : Z) : spec_float := SFofZ 53 1024 z.

Lemma z64_ok : val 53 1024 (z64 0) 0 /\ val 53 1024 (z64 1) 1 /\ val 53 1024 (z64 2) 2 /\ val 53 1024 (z64 3) 3.
Proof.
  repeat split; try reflexivity; unfold z64, SFofZ.
  - replace (SpecFloat.binary_normalize 53 1024 1 0 false) with (S754_finite false 4503599627370496 (-52)) by reflexivity.
    cbn [sf_value cond_Zopp]. do 2 f_equal. change (bpow radix2 (-52)) with (/ 4503599627370496). field.
  - replace (SpecFloat.binary_normalize 53 1024 2 0 false) with (S754_finite false 4503599627370496 (-51)) by reflexivity.
    cbn [sf_value cond_Zopp]. do 2 f_equal. change (bpow radix2 (-51)) with (/ 2251799813685248). field.
  - replace (SpecFloat.binary_normalize 53 1024 3 0 false) with (S754_finite false 6755399441055744 (-51)) by reflexivity.
    cbn [sf_value cond_Zopp]. do 2 f_equal. change (bpow radix2 (-51)) with (/ 2251799813685248). field.
Qed.
Lemma table_stands d : 0 <= d ->
  Forall2 (stands_for 53 1024 d) (@table _ (F64 L64) (z64 1) (z64 2) (z64 3)) (table 1 2 3).
Proof.
  intros Hd. destruct z64_ok as (V0 & V1 & V2 & V3').
  assert (Hq : near_quat 53 1024 d (@q1 _ (F64 L64)) q1).
  { split; [apply unit_q1|]. exists q1. rewrite qdist_self. split; [|exact Hd]. hnf. cbn [q1 qi qj qk qw]. auto. }
  assert (Va : forall x y z (a b c : R), val 53 1024 x a -> val 53 1024 y b -> val 53 1024 z c -> unit_axis (V3 a b c) -> near_axis 53 1024 d (V3 x y z) (V3 a b c)).
  { intros x y z a b c Hx Hy Hz Hu. split; [exact Hu|]. exists (V3 a b c). rewrite dist_self. split; [|exact Hd]. hnf. cbn. auto. }
  constructor; [|constructor; [|constructor]].
  - split; [apply Va; try assumption; unfold unit_axis; cbn; ring|]. split; [exact V1|]. split; [hnf; cbn; auto|exact Hq].
  - split; [apply Va; try assumption; unfold unit_axis; cbn; ring|]. split; [exact V2|]. split; [hnf; cbn; auto|exact Hq].
Qed.
(** the computed end of the arm is within 10^-11 m of the ideal one, at distance 6 at most *)
Example C60_case (t nx : nat) : exists x w r,
  run t (@end_transform _ (F64 L64) table_chain) (quiet (@table_heap _ (F64 L64) (z64 1) (z64 2) (z64 3)) nx) =
    Done x (quiet (@table_heap _ (F64 L64) (z64 1) (z64 2) (z64 3)) nx) /\
  run t (end_transform table_chain) (quiet (table_heap 1 2 3) nx) = Done w (quiet (table_heap 1 2 3) nx) /\
  ival 53 1024 x r /\ dist (tr r) (tr w) < / 100000000000.
Proof.
  assert (Ht : total (map span (table 1 2 3)) = 6).
  { unfold table. cbn [map]. rewrite !total_cons. unfold span, extension, jt. cbn [j_type j_origin j_position tr].
    change (@szero R RScalar) with 0. unfold len, inner. cbn [vx vy vz].
    replace (0 * 0 + 0 * 0 + 1 * 1) with (1 * 1) by ring. replace (3 * 3 + 0 * 0 + 0 * 0) with (3 * 3) by ring.
    rewrite !sqrt_square by lra. rewrite (Rabs_pos_eq 2) by lra. cbn. ring. }
  destruct (C60_f64 L64 t (@table_heap _ (F64 L64) (z64 1) (z64 2) (z64 3)) (table_heap 1 2 3) nx table_chain
    (@table _ (F64 L64) (z64 1) (z64 2) (z64 3)) (table 1 2 3)) as (x & w & r & R1 & R2 & Hr & _ & Hd).
  - intros x r Hx. destruct (good_libm_ok 53 1024 f64_ok f64_lt ltac:(lia) x r Hx) as [(s & Hs & Es) (c & Hc & Ec)].
    assert (2 * unit_roundoff 53 <= / 2 ^ 51).
    { change (unit_roundoff 53) with (/ 9007199254740992). lra. }
    split; [exists s|exists c]; (split; [assumption|lra]).
  - repeat (constructor; [eexists; split; reflexivity|]); constructor.
  - repeat (constructor; [eexists; split; reflexivity|]); constructor.
  - apply table_stands. lra.
  - cbn. lra.
  - rewrite Ht. apply Rle_trans with (2 ^ 3); [lra|]. apply Rle_pow; [lra|lia].
  - exists x, w, r. repeat (split; [assumption|]). rewrite Ht in Hd. cbn [table length INR] in Hd.
    assert (/ 2 ^ 1000 <= / 2 ^ 3) by (apply Rinv_le_contravar; [lra|apply Rle_pow; [lra|lia]]).
    eapply Rle_lt_trans; [exact Hd|].
    apply Rle_lt_trans with ((1 + 1) * / 2 ^ 42 * (6 + (1 + 1) * / 2 ^ 3)); [|lra].
    apply Rmult_le_compat_l; [lra|]. lra.
Qed.
(** and so is the pose of each of its nodes *)
Example C60_case_worlds (t nx : nat) : exists xs ws s s',
  run t (@update_transforms _ (F64 L64) table_chain) (quiet (@table_heap _ (F64 L64) (z64 1) (z64 2) (z64 3)) nx) = Done xs s /\
  run t (update_transforms table_chain) (quiet (table_heap 1 2 3) nx) = Done ws s' /\
  forall i b x w, c_nodes table_chain !! i = Some b -> xs !! i = Some x -> ws !! i = Some w ->
      exists l js, path_up (table_heap 1 2 3) b l /\ joints_of (table_heap 1 2 3) (rev l) js /\
        (fits 53 1024 0 (2 * unit_roundoff 53) js -> close 53 1024 0 (2 * unit_roundoff 53) js x w).
Proof.
  apply (C60_update_transforms 53 1024 f64_ok f64_lt L64 0 (2 * unit_roundoff 53) t
    (@table_heap _ (F64 L64) (z64 1) (z64 2) (z64 3)) (table_heap 1 2 3) nx table_chain).
  - lia.
  - lra.
  - pose proof (u_small 53 ltac:(lia)). lra.
  - apply good_libm_ok; lia || reflexivity.
  - intros a. pose proof (table_stands 0 ltac:(lra)) as H. unfold table_heap, table in *.
    apply Forall2_cons in H as [Ha H]. apply Forall2_cons in H as [Hb _].
    destruct a as [|[|a]]; [split; [reflexivity|exact Ha]|split; [reflexivity|exact Hb]|].
    rewrite !lookup_insert_ne, !lookup_empty by lia. exact I.
  - intros a Ha. cbn in Ha. apply elem_of_cons in Ha as [->|Ha]; [eexists; reflexivity|]. apply elem_of_list_singleton in Ha as ->. eexists; reflexivity.
  - intros l1 a l2 p E [(n & Hn & Hp) _]. destruct l1 as [|b [|b' l1]]; cbn in E; [| |destruct l1; discriminate]; injection E; intros; subst; cbn in Hn;
      injection Hn as <-; cbn in Hp; [discriminate|]. injection Hp as <-. set_solver.
Qed.
