(** * Rounding errors of the center of mass *)
From Coq Require Import Reals ZArith Lra Lia Psatz Floats.SpecFloat.
From Flocq Require Import Core IEEE754.BinarySingleNaN.
From stdpp Require Import gmap.
From Verif Require Import Scalar ScalarR ScalarF Geometry Joint Link Prog NodeM ChainM FuncsM RunLemmas SpecValues SpecFloatErr FloatErr
  SpecNode SpecGraph SpecChain GraphProofs ChainProofs SpecFK FKProofs SpecGeom RGeom GeomProofs SpecCom ComProofs
  SpecReach ReachProofs SpecAcc AccProofs AccProofs2 SpecComAcc.
Local Open Scope R_scope.

Section Acc.
  Context (prec emax : Z) (Hp : Prec_gt_0 prec) (Hm : Prec_lt_emax prec emax) (L : libm).
  Notation val := (val prec emax).
  Notation vval := (vval prec emax).
  Notation u := (unit_roundoff prec).
  Notation mu := (tiny emax).
  Notation BIG := (bpow radix2 (emax - 2)).
  Notation FS := (FScalar prec emax L).
  Context (Hprec : (11 <= prec)%Z).
  Notation T := (T prec emax).
  Notation VT := (VT prec emax).

  Lemma div_ok x y a b : val x a -> val y b -> b <> 0 -> Rabs (a / b) <= bpow radix2 (emax - 1) ->
    exists c, val (SFdiv prec emax x y) c /\ Rabs (c - a / b) <= u * Rabs (a / b) + u * mu.
  Proof.
    intros Hx Hy H0 Hs. apply val_B in Hx as (x' & -> & Hfx & <-); try assumption. apply val_B in Hy as (y' & -> & Hfy & <-); try assumption.
    pose proof (Bdiv_correct prec emax Hp Hm mode_NE x' y' H0) as HC.
    change (round_mode mode_NE) with ZnearestE in HC. rewrite Rlt_bool_true in HC by (apply rnd_small; assumption). destruct HC as (H1 & H2 & _).
    exists (B2R (Bdiv mode_NE x' y')). split; [apply val_B; eexists; split; [apply div_equiv; assumption|]; split; [congruence|reflexivity]|].
    rewrite H1. apply rnd_err. assumption.
  Qed.
  (** sums of any length *)
  Lemma T_add_long k m1 m2 x y r s : (1 + u) ^ k <= 2 -> m1 + m2 <= BIG -> T k m1 x r -> T k m2 y s -> T (S k) (m1 + m2) (SFadd prec emax x y) (r + s).
  Proof.
    intros Hk HB (a & Ha & Hr & He) (b & Hb & Hs & Hf). pose proof (u_small prec Hprec) as [U0 U1].
    assert (Hab : Rabs (a + b) <= (1 + u) ^ k * (m1 + m2)).
    { eapply Rle_trans; [apply Rabs_triang|]. pose proof (T_abs prec emax _ _ _ _ _ Ha Hr He). pose proof (T_abs prec emax _ _ _ _ _ Hb Hs Hf). lra. }
    pose proof (Rabs_pos r). pose proof (Rabs_pos s). pose proof (pow_ge_1 (1 + u) k ltac:(lra)) as P1.
    destruct (add_ok prec emax Hp Hm _ _ _ _ Ha Hb) as (c & Hc & He').
    { rewrite big_double. eapply Rle_trans; [exact Hab|]. apply Rmult_le_compat; lra. }
    exists c. split; [exact Hc|]. split; [eapply Rle_trans; [apply Rabs_triang|]; lra|].
    replace (c - (r + s)) with ((c - (a + b)) + ((a - r) + (b - s))) by ring.
    eapply Rle_trans; [apply Rabs_triang|]. pose proof (Rabs_triang (a - r) (b - s)). cbn [Rpow_def.pow].
    assert (u * Rabs (a + b) <= u * ((1 + u) ^ k * (m1 + m2))) by (apply Rmult_le_compat_l; lra). lra.
  Qed.
  Lemma sum_T xs rms : Forall2 (fun x rm => T 1 (snd rm) x (fst rm)) xs rms -> forall k m0 x0 r0,
    T (S k) m0 x0 r0 -> (1 + u) ^ (S k + length xs) <= 2 -> m0 + total (map snd rms) <= BIG ->
    T (S k + length xs) (m0 + total (map snd rms)) (foldl (SFadd prec emax) x0 xs) (r0 + total (map fst rms)).
  Proof.
    pose proof (u_small prec Hprec) as [U0 U1].
    induction 1 as [|x [r m] xs rms Hx H IH]; intros k m0 x0 r0 H0 HP HB.
    - cbn [map length foldl]. change (total []) with 0. rewrite !Rplus_0_r, Nat.add_0_r. exact H0.
    - cbn [map length foldl fst snd] in *. rewrite total_cons in HB. rewrite !total_cons.
      assert (Tp : 0 <= total (map snd rms)).
      { clear - H. induction H as [|x [r m] xs rms (a & _ & Hr & _) H IH]; [change (0 <= 0); lra|]. cbn [map fst snd] in *. rewrite total_cons. pose proof (Rabs_pos r). lra. }
      assert (A : T (S (S k)) (m0 + m) (SFadd prec emax x0 x) (r0 + r)).
      { apply T_add_long; [|lra|exact H0|eapply (T_weak prec emax Hprec); [exact Hx|lia|lra]].
        eapply Rle_trans; [|exact HP]. apply pow_mono; [lra|lia]. }
      replace (S k + S (length xs))%nat with (S (S k) + length xs)%nat by lia.
      replace (m0 + (m + total (map snd rms))) with (m0 + m + total (map snd rms)) by ring.
      replace (r0 + (r + total (map fst rms))) with (r0 + r + total (map fst rms)) by ring.
      apply IH; [exact A| |lra]. replace (S (S k) + length xs)%nat with (S k + S (length xs))%nat by lia. exact HP.
  Qed.
  Lemma pow_u N : 8 * INR N * u <= 1 -> 1 <= (1 + u) ^ N <= 1 + 2 * (INR N * u) /\ (1 + u) ^ N <= 2.
  Proof.
    intros H. pose proof (u_small prec Hprec) as [U0 U1]. pose proof (pow_bound u N ltac:(lra) ltac:(lra)). pose proof (pow_ge_1 (1 + u) N ltac:(lra)). lra.
  Qed.
  (** the quotient of a sum by the sum of the masses *)
  Lemma quotient_T k m x y r M B : T k m x r -> T k M y M -> 0 < M -> Rabs r <= M * B -> 0 <= B ->
    (1 + u) ^ k - 1 <= / 4 -> B + m / M + 1 <= BIG ->
    exists c, val (SFdiv prec emax x y) c /\ Rabs (c - r / M) <= (2 * ((1 + u) ^ k - 1) + 2 * u) * (B + m / M) + u * mu.
  Proof.
    intros (a & Va & Hr & Ea) (b & Vb & HM & Eb) M0 HrB B0 Hth HB. pose proof (u_small prec Hprec) as [U0 U1]. pose proof (mu_small prec emax Hm Hprec) as [M1 M2].
    set (th := (1 + u) ^ k - 1) in *. assert (T0 : 0 <= th) by (unfold th; pose proof (pow_ge_1 (1 + u) k ltac:(lra)); lra).
    assert (m0 : 0 <= m) by (pose proof (Rabs_pos r); lra).
    assert (Hb : (1 - th) * M <= b) by (apply Rabs_le_inv in Eb; lra).
    assert (b0 : 0 < b) by (assert (0 < (1 - th) * M) by (apply Rmult_lt_0_compat; lra); lra).
    assert (Hb' : M <= 4 / 3 * b) by nra.
    assert (mM : 0 <= m / M) by (apply Rmult_le_pos; [lra|left; apply Rinv_0_lt_compat; lra]).
    assert (D : Rabs (a / b - r / M) <= 4 / 3 * th * (B + m / M)).
    { apply Rmult_le_reg_r with b; [exact b0|]. rewrite <- (Rabs_pos_eq b) at 2 by lra. rewrite <- Rabs_mult.
      replace ((a / b - r / M) * b) with ((a - r) + r / M * (M - b)) by (field; lra).
      eapply Rle_trans; [apply Rabs_triang|]. rewrite Rabs_mult. rewrite (Rabs_minus_sym M b).
      assert (Q : Rabs (r / M) <= B).
      { unfold Rdiv. rewrite Rabs_mult, (Rabs_pos_eq (/ M)) by (left; apply Rinv_0_lt_compat; lra).
        apply Rmult_le_reg_r with M; [exact M0|]. rewrite Rmult_assoc, Rinv_l by lra. lra. }
      assert (Rabs (r / M) * Rabs (b - M) <= B * (th * M)) by (apply Rmult_le_compat; try apply Rabs_pos; assumption).
      assert (Em : th * m = th * (m / M) * M) by (field; lra).
      assert (th * (B + m / M) * M <= th * (B + m / M) * (4 / 3 * b)) by (apply Rmult_le_compat_l; [apply Rmult_le_pos; lra|lra]).
      lra. }
    assert (Q : Rabs (r / M) <= B).
    { unfold Rdiv. rewrite Rabs_mult, (Rabs_pos_eq (/ M)) by (left; apply Rinv_0_lt_compat; lra).
      apply Rmult_le_reg_r with M; [exact M0|]. rewrite Rmult_assoc, Rinv_l by lra. lra. }
    assert (thB : th * (B + m / M) <= / 4 * (B + m / M)) by (apply Rmult_le_compat_r; lra).
    assert (A : Rabs (a / b) <= 4 / 3 * (B + m / M)).
    { replace (a / b) with ((a / b - r / M) + r / M) by ring. eapply Rle_trans; [apply Rabs_triang|]. lra. }
    destruct (div_ok x y a b Va Vb ltac:(lra)) as (c & Vc & Ec); [rewrite big_double; lra|].
    exists c. split; [exact Vc|]. replace (c - r / M) with ((c - a / b) + (a / b - r / M)) by ring.
    eapply Rle_trans; [apply Rabs_triang|].
    assert (u * Rabs (a / b) <= u * (4 / 3 * (B + m / M))) by (apply Rmult_le_compat_l; lra).
    assert (0 <= th * (B + m / M)) by (apply Rmult_le_pos; lra). assert (0 <= u * (B + m / M)) by (apply Rmult_le_pos; lra). lra.
  Qed.

  (** a float mass and center with the values [c]; the center bounded by [B] *)
  Definition center_val (B : R) (x : spec_float * vec3 spec_float) (c : R * vec3 R) : Prop :=
    val (fst x) (fst c) /\ 0 <= fst c /\ vval (snd x) (snd c) /\ len (snd c) <= B.
  Lemma rsum_total f cs : rsum f cs = total (map f cs).
  Proof. induction cs as [|c cs IH]; [reflexivity|]. cbn [map]. rewrite rsum_cons, total_cons, IH. reflexivity. Qed.
  Lemma masses_T B xs cs : Forall2 (center_val B) xs cs -> 8 * INR (S (length cs)) * u <= 1 -> rsum fst cs <= BIG ->
    T (S (length cs)) (rsum fst cs) (@total_mass _ FS xs) (rsum fst cs).
  Proof.
    intros H HN HB. pose proof (Forall2_length _ _ _ H) as Hl. unfold total_mass.
    assert (Ht : forall g : R * R -> R, (forall r, g (r, r) = r) -> total (map g (map (fun c : R * vec3 R => (fst c, fst c)) cs)) = rsum fst cs).
    { intros g Hg. rewrite rsum_total, map_map. f_equal. apply map_ext. intros c. apply Hg. }
    pose proof (sum_T (map fst xs) (map (fun c => (fst c, fst c)) cs)) as HS. rewrite map_length, Hl in HS. rewrite !Ht in HS by reflexivity.
    specialize (HS) with (k := 0%nat) (m0 := 0) (x0 := @szero _ FS) (r0 := 0). rewrite !Rplus_0_l in HS. apply HS; [| |apply pow_u, HN|exact HB].
    - clear - H Hprec. induction H as [|x c xs cs (Hv & H0 & _) H IH]; [constructor|]. cbn [map]. constructor; [|exact IH]. cbn [fst snd].
      eapply (T_weak prec emax Hprec 0 (fst c)); [apply T_val; [exact Hv|rewrite Rabs_pos_eq; lra]|lia|lra].
    - eapply (T_weak prec emax Hprec 0 0); [apply T_val; [apply val_zero|rewrite Rabs_R0; lra]|lia|lra].
  Qed.
  Lemma weights_T B xs cs (g : vec3 spec_float -> spec_float) (f : vec3 R -> R) : Forall2 (center_val B) xs cs ->
    (forall x c, vval x c -> val (g x) (f c)) -> (forall c, Rabs (f c) <= len c) ->
    8 * INR (S (length cs)) * u <= 1 -> rsum fst cs * B + INR (length cs) * mu <= BIG ->
    T (S (length cs)) (rsum fst cs * B + INR (length cs) * mu) (foldl (SFadd prec emax) (@szero _ FS) (map (fun mc => SFmul prec emax (g (snd mc)) (fst mc)) xs))
      (rsum (fun mc => fst mc * f (snd mc)) cs).
  Proof.
    intros H Hg Hf HN HB. pose proof (Forall2_length _ _ _ H) as Hl. pose proof (u_small prec Hprec) as [U0 U1]. pose proof (mu_small prec emax Hm Hprec) as [M0 M1].
    set (rms := map (fun c : R * vec3 R => (f (snd c) * fst c, B * fst c + mu)) cs).
    assert (E1 : total (map snd rms) = rsum fst cs * B + INR (length cs) * mu).
    { unfold rms. rewrite map_map. cbn [snd]. clear. induction cs as [|c cs IH]; [change (total _) with 0; rewrite rsum_nil; cbn; ring|].
      cbn [map]. rewrite total_cons, rsum_cons, IH. change (length (c :: cs)) with (S (length cs)). rewrite S_INR. ring. }
    assert (E2 : total (map fst rms) = rsum (fun mc => fst mc * f (snd mc)) cs).
    { unfold rms. rewrite map_map, rsum_total. f_equal. apply map_ext. intros c. cbn. ring. }
    assert (Tp : forall c, c ∈ cs -> B * fst c <= BIG).
    { intros c Hc. eapply Rle_trans; [|exact HB]. clear - H Hc M0. 
      assert (P : forall xs cs, Forall2 (center_val B) xs cs -> 0 <= rsum fst cs * B + INR (length cs) * mu).
      { clear - M0. induction 1 as [|x c xs cs (_ & H0 & _ & HB) H IH]; [rewrite rsum_nil; cbn; lra|]. rewrite rsum_cons. change (length (c :: cs)) with (S (length cs)). rewrite S_INR.
        pose proof (len_nonneg (snd c)). assert (0 <= fst c * B) by (apply Rmult_le_pos; lra). lra. }
      induction H as [|x c' xs cs Hc' H IH]; [inversion Hc|]. rewrite rsum_cons. change (length (c' :: cs)) with (S (length cs)). rewrite S_INR.
      destruct Hc' as (_ & H0 & _ & HB). pose proof (len_nonneg (snd c')). assert (0 <= fst c' * B) by (apply Rmult_le_pos; lra).
      apply elem_of_cons in Hc as [-> | Hc]; [pose proof (P _ _ H); lra|]. specialize (IH Hc). lra. }
    pose proof (sum_T (map (fun mc => SFmul prec emax (g (snd mc)) (fst mc)) xs) rms) as HS. rewrite map_length, Hl, E1, E2 in HS.
    specialize (HS) with (k := 0%nat) (m0 := 0) (x0 := @szero _ FS) (r0 := 0). rewrite !Rplus_0_l in HS. apply HS; [| |apply pow_u, HN|exact HB].
    - unfold rms. clear - H Hg Hf Hprec Hp Hm Tp. induction H as [|x c xs cs (Hv & H0 & Hv' & HB) H IH]; [constructor|]. cbn [map]. constructor.
      + cbn [fst snd]. apply (T_mul prec emax Hp Hm Hprec 0 0); [lia|apply Tp; set_solver| |].
        * apply T_val; [apply Hg, Hv'|]. eapply Rle_trans; [apply Hf|exact HB].
        * apply T_val; [exact Hv|]. rewrite Rabs_pos_eq; lra.
      + apply IH. intros c' Hc'. apply Tp. set_solver.
    - eapply (T_weak prec emax Hprec 0 0); [apply T_val; [apply val_zero|rewrite Rabs_R0; lra]|lia|lra].
  Qed.
  Lemma foldl_vadd (l : list (vec3 spec_float)) v :
    foldl (@vadd _ FS) v l = V3 (foldl (SFadd prec emax) (vx v) (map vx l)) (foldl (SFadd prec emax) (vy v) (map vy l)) (foldl (SFadd prec emax) (vz v) (map vz l)).
  Proof. revert v. induction l as [|x l IH]; intros v; [destruct v; reflexivity|]. cbn [foldl map]. rewrite IH. reflexivity. Qed.
  Lemma rsum_abs f cs B : Forall (fun c => 0 <= fst c /\ Rabs (f (snd c)) <= B) cs -> Rabs (rsum (fun mc => fst mc * f (snd mc)) cs) <= rsum fst cs * B.
  Proof.
    induction 1 as [|c cs [H0 Hf] H IH]; [rewrite !rsum_nil, Rabs_R0; lra|]. rewrite !rsum_cons.
    eapply Rle_trans; [apply Rabs_triang|]. rewrite Rabs_mult, (Rabs_pos_eq (fst c)) by exact H0.
    assert (fst c * Rabs (f (snd c)) <= fst c * B) by (apply Rmult_le_compat_l; assumption). lra.
  Qed.
  Lemma com_close B xs cs : Forall2 (center_val B) xs cs -> 8 * INR (S (length cs)) * u <= 1 -> 0 < rsum fst cs -> mu <= B ->
    rsum fst cs <= BIG -> rsum fst cs * B + INR (length cs) * mu <= BIG -> 2 * B + INR (length cs) * mu / rsum fst cs + 1 <= BIG ->
    exists r, vval (@vdivs _ FS (@weighted_sum _ FS xs) (@total_mass _ FS xs)) r /\
      dist r (mean cs) <= 32 * INR (S (length cs)) * u * (B + INR (length cs) * mu / rsum fst cs).
  Proof.
    intros H HN M0 HB H1 H2 H3. pose proof (u_small prec Hprec) as [U0 U1]. pose proof (mu_small prec emax Hm Hprec) as [mu0 mu1].
    pose proof (masses_T B xs cs H HN H1) as TM. set (M := rsum fst cs) in *. set (n := INR (length cs)) in *. set (m := M * B + n * mu) in *.
    assert (n0 : 0 <= n) by apply pos_INR. assert (EN : INR (S (length cs)) = n + 1) by (rewrite S_INR; reflexivity).
    assert (Em : m / M = B + n * mu / M) by (unfold m; field; lra).
    assert (q0 : 0 <= n * mu / M) by (apply Rmult_le_pos; [apply Rmult_le_pos; lra|left; apply Rinv_0_lt_compat; lra]).
    destruct (pow_u _ HN) as [[P1 P2] _].
    assert (Hab : forall f : vec3 R -> R, (forall c, Rabs (f c) <= len c) -> Rabs (rsum (fun mc => fst mc * f (snd mc)) cs) <= M * B).
    { intros f Hf. apply rsum_abs. clear - H Hf. induction H as [|x c xs cs (_ & H0 & _ & HB) H IH]; constructor; [|exact IH]. split; [exact H0|].
      eapply Rle_trans; [apply Hf|exact HB]. }
    assert (HQ : forall (g : vec3 spec_float -> spec_float) (f : vec3 R -> R), (forall x c, vval x c -> val (g x) (f c)) -> (forall c, Rabs (f c) <= len c) ->
      exists c, val (SFdiv prec emax (foldl (SFadd prec emax) (@szero _ FS) (map (fun mc => SFmul prec emax (g (snd mc)) (fst mc)) xs)) (@total_mass _ FS xs)) c /\
        Rabs (c - rsum (fun mc => fst mc * f (snd mc)) cs / M) <= 16 * INR (S (length cs)) * u * (B + n * mu / M)).
    { intros g f Hg Hf. pose proof (weights_T B xs cs g f H Hg Hf HN H2) as TW. fold M n m in TW.
      destruct (quotient_T _ _ _ _ _ M B TW TM M0 (Hab f Hf) ltac:(lra)) as (c & Vc & Ec); [rewrite EN in *; lra|rewrite Em; lra|].
      exists c. split; [exact Vc|]. eapply Rle_trans; [exact Ec|]. rewrite Em. set (q := n * mu / M) in *. rewrite EN in *.
      assert (A1 : (2 * ((1 + u) ^ S (length cs) - 1) + 2 * u) * (B + (B + q)) <= (4 * ((n + 1) * u) + 2 * u) * (2 * (B + q))).
      { apply Rmult_le_compat; lra. }
      assert (A2 : u * mu <= u * (B + q)) by (apply Rmult_le_compat_l; lra).
      assert (A3 : 0 <= n * (u * (B + q))) by (apply Rmult_le_pos; [lra|]; apply Rmult_le_pos; lra).
      assert (A4 : 0 <= u * (B + q)) by (apply Rmult_le_pos; lra). lra. }
    destruct (HQ vx vx) as (cx & Vx & Ex); [intros x c (A & _); exact A|intros c; apply comp_len|].
    destruct (HQ vy vy) as (cy & Vy & Ey); [intros x c (_ & A & _); exact A|intros c; apply comp_len|].
    destruct (HQ vz vz) as (cz & Vz & Ez); [intros x c (_ & _ & A); exact A|intros c; apply comp_len|].
    exists (V3 cx cy cz). split.
    - unfold weighted_sum. rewrite foldl_vadd, !map_map. hnf. cbn [vdivs vx vy vz]. auto.
    - replace (32 * INR (S (length cs)) * u * (B + n * mu / M)) with (2 * (16 * INR (S (length cs)) * u * (B + n * mu / M))) by ring.
      unfold mean. fold M. apply len_comps; cbn [minus times vx vy vz]; unfold Rdiv in *; rewrite (Rmult_comm (/ M)); assumption.
  Qed.
  (** and the means of nearby centers are near *)
  Lemma mean_near cs cs' e : Forall2 (fun c c' : R * vec3 R => 0 <= fst c /\ fst c' = fst c /\ dist (snd c') (snd c) <= e) cs cs' -> 0 < rsum fst cs ->
    rsum fst cs' = rsum fst cs /\ dist (mean cs') (mean cs) <= e.
  Proof.
    intros H M0. assert (EM : rsum fst cs' = rsum fst cs).
    { clear M0. induction H as [|c c' cs cs' (_ & E & _) H IH]; [reflexivity|]. rewrite !rsum_cons, E, IH. reflexivity. }
    split; [exact EM|]. set (S c := V3 (rsum (fun mc => fst mc * vx (snd mc)) c) (rsum (fun mc => fst mc * vy (snd mc)) c) (rsum (fun mc => fst mc * vz (snd mc)) c)).
    assert (HS : dist (S cs') (S cs) <= rsum fst cs * e).
    { clear EM M0. induction H as [|c c' cs cs' (H0 & E & Hd) H IH]; [unfold S; rewrite !rsum_nil, dist_self; lra|].
      assert (Ex : minus (S (c' :: cs')) (S (c :: cs)) = plus (times (fst c) (minus (snd c') (snd c))) (minus (S cs') (S cs))).
      { unfold S. rewrite !rsum_cons, E. apply V3_eq; cbn; ring. }
      unfold dist in *. rewrite Ex, rsum_cons. eapply Rle_trans; [apply len_plus|]. rewrite len_times, Rabs_pos_eq by exact H0.
      assert (fst c * len (minus (snd c') (snd c)) <= fst c * e) by (apply Rmult_le_compat_l; assumption). lra. }
    unfold dist in *. assert (minus (mean cs') (mean cs) = times (/ rsum fst cs) (minus (S cs') (S cs))) as ->.
    { unfold mean. rewrite EM. apply V3_eq; cbn; ring. }
    rewrite len_times, Rabs_pos_eq by (left; apply Rinv_0_lt_compat; lra).
    apply Rmult_le_reg_l with (rsum fst cs); [exact M0|]. rewrite <- Rmult_assoc, Rinv_r by lra. lra.
  Qed.
End Acc.

Section Heap.
  Context (prec emax : Z) (Hp : Prec_gt_0 prec) (Hm : Prec_lt_emax prec emax) (L : libm) (Hprec : (11 <= prec)%Z) (alpha delta : R)
    (Ha : 0 <= alpha) (Hd : 0 <= delta) (HL : libm_within prec emax delta L).
  Context (hf : gmap nat (node spec_float)) (hr : gmap nat (node R)) (Hs : stand_for prec emax alpha hf hr) (Hi : links_stand prec emax hf hr).
  Notation FS := (FScalar prec emax L).
  Notation G := (growth prec alpha delta).
  Notation BIG := (bpow radix2 (emax - 2)).

  Lemma growth_rho : 1 + 32 * unit_roundoff prec <= G.
  Proof.
    pose proof (u_small prec Hprec) as [U0 U1]. rewrite growth_grow. unfold grow. pose proof (own_ge prec Hprec alpha delta Ha Hd) as Ho.
    assert (1 <= (1 + alpha) * own prec alpha delta) by nra. set (x := (1 + alpha) * own prec alpha delta) in *.
    assert (1 <= x * (1 + 32 * unit_roundoff prec)) by nra. nra.
  Qed.
  (** the pose of a node *)
  Lemma world_close a p js wf w : path_up hr a p -> joints_of hr (rev p) js -> world hr a w -> @world _ FS hf a wf ->
    15 * G ^ (8 * length js) * (reach emax js + 1) <= BIG ->
    approx prec emax (G ^ length js) (reach emax js) wf w.
  Proof.
    intros Hpath Hjs (l & ts & P1 & T1 & ->) (l' & ts' & P2 & T2 & ->) Hf.
    assert (l = p) as -> by (eapply path_up_fun; eauto).
    assert (l' = p) as -> by (eapply path_up_fun; [exact P2|eapply stand_path; eauto]).
    destruct (stand_joints _ _ _ _ _ Hs _ _ Hjs) as (xs & Hxs & Hst).
    rewrite (locals_joints _ _ _ T1 _ Hjs), (@locals_joints _ FS _ _ _ T2 _ Hxs).
    pose proof (approx_product prec emax Hp Hm L Hprec alpha delta Ha Hd HL xs js Hst 1 0 _ _ (Rle_refl 1) (Rle_refl 0)
      (approx_iso1 prec emax Hp Hm L Hprec 1 0 (Rle_refl 1) (Rle_refl 0))) as H.
    rewrite Rmult_1_l, Rplus_0_l, slack_reach in H. apply H. rewrite <- pow_mult, Nat.mul_comm. exact Hf.
  Qed.
  Lemma center_close D l a p js wf w cf c : path_up hr a p -> joints_of hr (rev p) js -> world hr a w -> @world _ FS hf a wf ->
    vval prec emax cf c -> (length js <= D)%nat -> reach emax js + len c + lost emax <= l ->
    15 * swell prec alpha delta D * (l + 1) <= BIG ->
    exists c', vval prec emax (@vadd _ FS (tr wf) (@qrot _ FS (rt wf) cf)) c' /\ len c' <= swell prec alpha delta D * l /\
      dist c' (move w c) <= (swell prec alpha delta D - 1) * l.
  Proof.
    intros Hpath Hjs Hw Hwf Hc HD Hl HB. pose proof growth_rho as Gr. pose proof (u_small prec Hprec) as [U0 U1]. pose proof (mu_small prec emax Hm Hprec) as [M0 M1].
    assert (G1 : 1 <= G) by lra. pose proof (len_nonneg c) as c0. unfold lost in Hl.
    assert (R0 : 0 <= reach emax js) by (rewrite <- (slack_reach emax js); apply (slack_pos prec emax Hm Hprec)).
    assert (S1 : 1 <= swell prec alpha delta D) by (apply pow_ge_1, G1).
    assert (Wn : G ^ (8 * length js) <= swell prec alpha delta D) by (apply pow_mono; [exact G1|lia]).
    assert (Hmon : forall x y, 0 <= x -> x <= swell prec alpha delta D -> 0 <= y -> y <= l + 1 -> 15 * x * y <= BIG).
    { intros x y x0 Hx y0 Hy. assert (x * y <= swell prec alpha delta D * (l + 1)) by (apply Rmult_le_compat; lra). lra. }
    pose proof (world_close a p js wf w Hpath Hjs Hw Hwf) as Aw. specialize (Aw ltac:(apply Hmon; try lra; apply pow_le; lra)).
    assert (Ac : approx prec emax 1 (len c + 32 * tiny emax) (Iso cf (@q1 _ FS)) (Iso c q1)).
    { split; [exact unit_q1|]. split; [cbn [tr]; lra|]. exists (Iso c q1). rewrite qdist_self, dist_self. split; [|split; [lra|]].
      - split; [exact Hc|]. pose proof (val_zero prec emax L). pose proof (val_one prec emax Hp Hm L Hprec). hnf; cbn [rt q1 qi qj qk qw]; auto.
      - rewrite pow1. lra. }
    pose proof (pow_ge_1 G (length js) G1) as X1.
    assert (A : approx prec emax (G ^ length js * 1 * (1 + 32 * unit_roundoff prec)) (reach emax js + (len c + 32 * tiny emax)) (@iso_mul _ FS wf (Iso cf (@q1 _ FS))) (iso_mul w (Iso c q1))).
    { apply (approx_mul prec emax Hp Hm L Hprec); try assumption; try lra. rewrite Rmult_1_r, <- pow_mult, Nat.mul_comm. apply Hmon; try lra. apply pow_le; lra. }
    destruct A as (_ & Hlen & r & Hr & _ & Hdr). exists (tr r). split; [apply Hr|].
    change (tr (iso_mul w (Iso c q1))) with (vadd (tr w) (qrot (rt w) c)) in Hdr, Hlen. rewrite vadd_qrot_move in Hdr, Hlen.
    assert (EW : (G ^ length js * 1 * (1 + 32 * unit_roundoff prec)) ^ 8 <= swell prec alpha delta D).
    { rewrite Rmult_1_r. unfold swell. rewrite Nat.mul_comm, pow_mult.
      apply pow_incr. split; [apply Rmult_le_pos; lra|]. apply Rle_trans with (G ^ length js * G).
      - apply Rmult_le_compat_l; lra.
      - rewrite Rmult_comm. change (G * G ^ length js) with (G ^ S (length js)). apply pow_mono; [exact G1|lia]. }
    assert (Hdr' : dist (tr r) (move w c) <= (swell prec alpha delta D - 1) * l).
    { eapply Rle_trans; [exact Hdr|]. apply Rmult_le_compat; try lra.
      assert (1 <= (G ^ length js * 1 * (1 + 32 * unit_roundoff prec)) ^ 8); [|lra]. apply pow_ge_1. rewrite Rmult_1_r. nra. }
    split; [|exact Hdr']. pose proof (len_near (tr r) (move w c)). lra.
  Qed.
  Lemma centers_close nodes D l : links_within emax hr nodes D l -> 15 * swell prec alpha delta D * (l + 1) <= BIG ->
    forall k cs xs, (forall a, a ∈ k -> a ∈ nodes) -> link_centers hr k cs -> @centers _ FS hf k xs -> Forall (fun c => 0 <= fst c) cs ->
    exists cs', Forall2 (center_val prec emax (swell prec alpha delta D * l)) xs cs' /\
      Forall2 (fun c c' => 0 <= fst c /\ fst c' = fst c /\ dist (snd c') (snd c) <= (swell prec alpha delta D - 1) * l) cs cs'.
  Proof.
    intros Hw HB k cs xs Hk H. revert xs. induction H as [|a k cs n Hn Hl H IH|a k cs n lk w Hn Hl Hwd H IH]; intros xs Hx Hpos.
    - inversion Hx. exists []. split; constructor.
    - pose proof (Hs a) as Hsa. rewrite Hn in Hsa. destruct (hf !! a) as [x|] eqn:Ex; [|contradiction].
      pose proof (Hi a x n Ex Hn) as Hii. rewrite Hl in Hii.
      inversion Hx as [|? ? ? n' Hn' Hl' H'|? ? ? n' lk' w' Hn' Hl' Hw' H']; subst.
      + apply IH; [set_solver|assumption|assumption].
      + rewrite Ex in Hn'. apply Some_inj in Hn' as <-. rewrite Hl' in Hii. contradiction.
    - pose proof (Hs a) as Hsa. rewrite Hn in Hsa. destruct (hf !! a) as [x|] eqn:Ex; [|contradiction].
      pose proof (Hi a x n Ex Hn) as Hii. rewrite Hl in Hii.
      inversion Hx as [|? ? ? n' Hn' Hl' H'|? ? ? n' lk' w' Hn' Hl' Hw' H']; subst.
      { rewrite Ex in Hn'. apply Some_inj in Hn' as <-. rewrite Hl' in Hii. contradiction. }
      rewrite Ex in Hn'. apply Some_inj in Hn' as <-. rewrite Hl' in Hii. destruct Hii as [Hmass Hctr].
      apply Forall_cons in Hpos as [Hp1 Hp2]. destruct (IH ltac:(set_solver) _ H' Hp2) as (cs' & F1 & F2).
      pose proof Hwd as (p & ts & Pp & Tp & _).
      assert (Hlive : all_live hr (rev p)).
      { intros e He. apply elem_of_list_lookup in He as [i He]. destruct (Forall2_lookup_l _ _ _ _ _ Tp He) as (? & _ & m & Hm' & _). eauto. }
      destruct (joints_exist hr (rev p) Hlive) as [js Hjs].
      destruct (Hw a n lk p js (Hk a ltac:(set_solver)) Hn Hl Pp Hjs) as [HD Hlen].
      destruct (center_close D l a p js w' w _ _ Pp Hjs Hwd Hw' Hctr HD Hlen HB) as (c' & V & Bc & Dc).
      exists ((in_mass (l_inertial lk), c') :: cs'). split; (constructor; [|assumption]); cbn [fst snd] in *.
      + split; [exact Hmass|]. split; [exact Hp1|]. split; [exact V|exact Bc].
      + split; [exact Hp1|]. split; [reflexivity|exact Dc].
  Qed.
  Lemma com_run_close t nx c D l cs : all_live hr (c_nodes c) -> parents_first hr (c_nodes c) -> link_centers hr (c_nodes c) cs ->
    Forall (fun c => 0 <= fst c) cs -> 0 < rsum fst cs -> links_within emax hr (c_nodes c) D l ->
    fits_com prec emax alpha delta D l (length cs) (rsum fst cs) ->
    exists x s s' r, run t (@center_of_mass _ FS c) (quiet hf nx) = Done x s /\
      run t (center_of_mass c) (quiet hr nx) = Done (mean cs) s' /\ vval prec emax x r /\
      dist r (mean cs) <= (swell prec alpha delta D - 1) * l +
        32 * INR (S (length cs)) * unit_roundoff prec * (swell prec alpha delta D * l + INR (length cs) * tiny emax / rsum fst cs).
  Proof.
    intros Hl Hpf Hcs Hpos M0 Hw (F1 & F2 & F3).
    destruct (center_of_mass_lemma t hr nx c Hl Hpf) as (cs1 & h1 & C1 & R1).
    assert (cs1 = cs) as -> by (eapply centers_fun; [exact C1|apply centers_link_centers, Hcs]). rewrite com_mean in R1.
    destruct (@center_of_mass_lemma _ FS t hf nx c (stand_all_live _ _ _ _ _ Hs _ Hl) (stand_parents_first _ _ _ _ _ Hs _ Hpf)) as (xs & h2 & C2 & R2).
    pose proof growth_rho as Gr. pose proof (u_small prec Hprec) as [U0 U1]. pose proof (mu_small prec emax Hm Hprec) as [m0 m1].
    set (M := rsum fst cs) in *. set (W := swell prec alpha delta D) in *. assert (W1 : 1 <= W) by (apply pow_ge_1; lra).
    pose proof (bpow_pred emax) as B1. rewrite (big_double emax) in B1.
    assert (ml : tiny emax <= l).
    { destruct cs as [|cc cs0]; [unfold M in M0; rewrite rsum_nil in M0; lra|]. clear - Hw Hcs m0 Hm Hprec.
      remember (cc :: cs0) as cs1 eqn:E. revert E. remember (c_nodes c) as k eqn:Ek.
      assert (Hk : forall a, a ∈ k -> a ∈ c_nodes c) by (rewrite Ek; auto). clear Ek.
      assert (Hw' : links_within emax hr k D l) by exact Hw. clear Hw Hk. revert Hw'.
      induction Hcs as [|a k cs n Hn Hl H IH|a k cs n lk w Hn Hl Hwd H IH]; intros Hw E; [discriminate| |].
      - apply IH; [|exact E]. intros b m lk p js Hb. apply Hw. set_solver.
      - pose proof Hwd as (p & ts & Pp & Tp & _).
        assert (Hlive : all_live hr (rev p)).
        { intros e He. apply elem_of_list_lookup in He as [i He]. destruct (Forall2_lookup_l _ _ _ _ _ Tp He) as (? & _ & m & Hm' & _). eauto. }
        destruct (joints_exist hr (rev p) Hlive) as [js Hjs].
        destruct (Hw a n lk p js ltac:(set_solver) Hn Hl Pp Hjs) as [_ Hlen]. unfold lost in Hlen.
        assert (R0 : 0 <= reach emax js) by (rewrite <- (slack_reach emax js); apply (slack_pos prec emax Hm Hprec)).
        pose proof (len_nonneg (tr (in_origin (l_inertial lk)))). lra. }
    assert (Wl : 0 <= W * l) by (apply Rmult_le_pos; lra).
    assert (WM : 0 <= W * l * M) by (apply Rmult_le_pos; lra). assert (WM1 : 1 * M <= W * M) by (apply Rmult_le_compat_r; lra).
    assert (F1' : 15 * (W * l * M) + 15 * (W * l) + 15 * (W * M) + 15 * W <= BIG) by lra.
    destruct (centers_close (c_nodes c) D l Hw ltac:(fold W; lra) (c_nodes c) cs xs ltac:(auto) Hcs C2 Hpos) as (cs' & H1 & H2). fold W in H1, H2.
    destruct (mean_near cs cs' _ H2 M0) as [EM Dm]. pose proof (Forall2_length _ _ _ H2) as El. fold M in EM.
    assert (q1 : INR (length cs) * tiny emax / M <= 1).
    { apply Rmult_le_reg_r with M; [exact M0|]. unfold Rdiv. rewrite Rmult_assoc, Rinv_l by lra. lra. }
    destruct (com_close prec emax Hp Hm L Hprec (W * l) xs cs' H1) as (r & Vr & Dr); rewrite <- ?El, ?EM; try lra.
    { assert (1 * l <= W * l) by (apply Rmult_le_compat_r; lra). lra. }
    rewrite <- El, EM in Dr. eexists _, _, _, r. split; [exact R2|]. split; [exact R1|]. split; [exact Vr|].
    pose proof (dist_tri r (mean cs') (mean cs)). lra.
  Qed.
End Heap.
