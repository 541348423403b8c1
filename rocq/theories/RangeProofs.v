(** * Proofs about [Range] *)
From Coq Require Import Reals ZArith Bool Lra Floats.SpecFloat.
From Flocq Require Import Core IEEE754.BinarySingleNaN.
From Verif Require Import Scalar ScalarR ScalarF Geometry Joint SpecValues.

Section Order.
  Context (prec emax : Z).

  Lemma sf_value_finite s m e (H : valid_binary prec emax (S754_finite s m e) = true) :
    sf_value (S754_finite s m e) = Some (Fin (B2R (SF2B (S754_finite s m e) H))).
  Proof. rewrite B2R_SF2B. reflexivity. Qed.

  Lemma SFcompare_fin s1 m1 e1 s2 m2 e2 :
    valid_binary prec emax (S754_finite s1 m1 e1) = true ->
    valid_binary prec emax (S754_finite s2 m2 e2) = true ->
    SFcompare (S754_finite s1 m1 e1) (S754_finite s2 m2 e2) =
    Some (Rcompare (SF2R radix2 (S754_finite s1 m1 e1)) (SF2R radix2 (S754_finite s2 m2 e2))).
  Proof.
    intros H1 H2.
    pose proof (Bcompare_correct prec emax (SF2B _ H1) (SF2B _ H2) eq_refl eq_refl) as H.
    unfold Bcompare in H. rewrite !B2SF_SF2B, !B2R_SF2B in H. exact H.
  Qed.

  Lemma pos_F2R s m e :
    (IZR (cond_Zopp s (Zpos m)) * bpow radix2 e < 0 <-> s = true)%R /\
    (0 < IZR (cond_Zopp s (Zpos m)) * bpow radix2 e <-> s = false)%R.
  Proof.
    assert (Hb := bpow_gt_0 radix2 e).
    assert (Hm : (0 < IZR (Zpos m))%R) by (apply IZR_lt; reflexivity).
    assert (Hp : (0 < IZR (Zpos m) * bpow radix2 e)%R) by (apply Rmult_lt_0_compat; assumption).
    destruct s; [change (cond_Zopp true (Zpos m)) with (- Zpos m)%Z | change (cond_Zopp false (Zpos m)) with (Zpos m)]; [rewrite opp_IZR, Ropp_mult_distr_l_reverse|];
      (split; split; intros; try lra; try reflexivity; try discriminate).
  Qed.

  (** The IEEE comparison is the order of the denoted extended reals. *)
  Lemma SFleb_value x y :
    valid_binary prec emax x = true -> valid_binary prec emax y = true ->
    SFleb x y = true <-> val_le (sf_value x) (sf_value y).
  Proof.
    intros Hx Hy. unfold SFleb.
    destruct x as [sx|sx| |sx mx ex]; destruct y as [sy|sy| |sy my ey].
    all: try (rewrite (SFcompare_fin _ _ _ _ _ _ Hx Hy);
      change (SF2R radix2 (S754_finite sx mx ex)) with (IZR (cond_Zopp sx (Zpos mx)) * bpow radix2 ex)%R;
      change (SF2R radix2 (S754_finite sy my ey)) with (IZR (cond_Zopp sy (Zpos my)) * bpow radix2 ey)%R;
      cbn [sf_value val_le ext_le];
      destruct (Rcompare_spec (IZR (cond_Zopp sx (Zpos mx)) * bpow radix2 ex)
                              (IZR (cond_Zopp sy (Zpos my)) * bpow radix2 ey)); split; intros;
      try lra; try reflexivity; discriminate).
    all: try (destruct sx; destruct sy; simpl; split; intros; tauto || discriminate || lra || reflexivity).
    all: try (destruct sx; simpl; split; intros; tauto || discriminate || lra || reflexivity).
    all: try (destruct sy; simpl; split; intros; tauto || discriminate || lra || reflexivity).
    all: try (simpl; split; intros; tauto || discriminate || lra || reflexivity).
    - destruct (pos_F2R sy my ey). cbn [sf_value val_le ext_le SFcompare].
      destruct sy; split; intros; try reflexivity; try discriminate.
      + assert (IZR (cond_Zopp true (Z.pos my)) * bpow radix2 ey < 0)%R by tauto. lra.
      + assert (0 < IZR (cond_Zopp false (Z.pos my)) * bpow radix2 ey)%R by tauto. lra.
    - destruct (pos_F2R sx mx ex). cbn [sf_value val_le ext_le SFcompare].
      destruct sx; split; intros; try reflexivity; try discriminate.
      + assert (IZR (cond_Zopp true (Z.pos mx)) * bpow radix2 ex < 0)%R by tauto. lra.
      + assert (0 < IZR (cond_Zopp false (Z.pos mx)) * bpow radix2 ex)%R by tauto. lra.
  Qed.
End Order.

Section Generic.
  Context {T : Type} `{Sc : Scalar T} `{!OrdLaws T}.

  Lemma is_valid_iff (r : range T) v :
    is_valid r v = true <-> sle (rmin r) v = true /\ sle v (rmax r) = true.
  Proof. unfold is_valid, sge. rewrite andb_true_iff. tauto. Qed.

  Lemma is_valid_num (r : range T) v : is_valid r v = true -> snum v.
  Proof. rewrite is_valid_iff. intros [H _]. apply (sle_num _ _ H). Qed.

  Lemma clamp_id (r : range T) v : is_valid r v = true -> clamp r v = v.
  Proof.
    rewrite is_valid_iff. intros [H1 H2]. unfold clamp, sgt.
    destruct (sle_num _ _ H1), (sle_num _ _ H2).
    rewrite slt_not_sle, H1 by assumption. cbn.
    rewrite slt_not_sle, H2 by assumption. reflexivity.
  Qed.

  Lemma clamp_valid (r : range T) v :
    sle (rmin r) (rmax r) = true -> snum v -> is_valid r (clamp r v) = true.
  Proof.
    intros Hr Hv. destruct (sle_num _ _ Hr) as [Hmin Hmax].
    apply is_valid_iff. unfold clamp, sgt.
    destruct (slt v (rmin r)) eqn:E1; [split; assumption|].
    rewrite slt_not_sle in E1 by assumption. apply negb_false_iff in E1.
    destruct (slt (rmax r) v) eqn:E2; [split; assumption|].
    rewrite slt_not_sle in E2 by assumption. apply negb_false_iff in E2. split; assumption.
  Qed.

  Lemma clamp_below (r : range T) v : slt v (rmin r) = true -> clamp r v = rmin r.
  Proof. unfold clamp. intros ->. reflexivity. Qed.
  Lemma clamp_above (r : range T) v :
    sle (rmin r) (rmax r) = true -> snum v -> slt (rmax r) v = true -> sle (rmin r) v = true ->
    clamp r v = rmax r.
  Proof.
    intros Hr Hv H1 H2. destruct (sle_num _ _ Hr). unfold clamp, sgt.
    rewrite slt_not_sle, H2, H1 by assumption. reflexivity.
  Qed.

  (** the three cases of clamp, for a number and a well-formed range *)
  Lemma clamp_cases (r : range T) v :
    sle (rmin r) (rmax r) = true -> snum v ->
    (is_valid r v = true /\ clamp r v = v) \/
    (sle (rmin r) v = false /\ clamp r v = rmin r) \/
    (sle v (rmax r) = false /\ clamp r v = rmax r).
  Proof.
    intros Hr Hv. destruct (sle_num _ _ Hr) as [Hmin Hmax]. unfold clamp, sgt.
    rewrite !slt_not_sle by assumption.
    destruct (sle (rmin r) v) eqn:E1; cbn [negb].
    - destruct (sle v (rmax r)) eqn:E2; cbn [negb].
      + left. rewrite is_valid_iff. tauto.
      + right. right. auto.
    - right. left. auto.
  Qed.

  Lemma clamp_idem (r : range T) v :
    sle (rmin r) (rmax r) = true -> snum v -> clamp r (clamp r v) = clamp r v.
  Proof. intros. apply clamp_id, clamp_valid; assumption. Qed.

  Lemma clamp_nan (r : range T) v : ~ snum v -> clamp r v = v /\ is_valid r v = false.
  Proof.
    intros Hv. split.
    - unfold clamp, sgt.
      destruct (slt v (rmin r)) eqn:E; [destruct Hv; apply (slt_num _ _ E)|].
      destruct (slt (rmax r) v) eqn:E2; [destruct Hv; apply (slt_num _ _ E2)|]. reflexivity.
    - destruct (is_valid r v) eqn:E; [|reflexivity]. destruct Hv. eapply is_valid_num; eauto.
  Qed.

  Lemma range_new_spec (mn mx : T) :
    range_new mn mx = if sle mn mx then Some (Range mn mx) else None.
  Proof. reflexivity. Qed.
End Generic.

(** ** C01 *)
Lemma range_real_lemma (r : range R) v :
  is_valid r v = true <-> (rmin r <= v <= rmax r)%R.
Proof. rewrite is_valid_iff. cbn. rewrite !Rleb_spec. tauto. Qed.

Lemma range_ieee_lemma prec emax L (r : range spec_float) v :
  valid_binary prec emax (rmin r) = true -> valid_binary prec emax (rmax r) = true ->
  valid_binary prec emax v = true ->
  is_valid (Sc := FScalar prec emax L) r v = true <->
  val_le (sf_value (rmin r)) (sf_value v) /\ val_le (sf_value v) (sf_value (rmax r)).
Proof.
  intros H1 H2 H3.
  rewrite (@is_valid_iff _ (FScalar prec emax L)). cbn.
  rewrite !(SFleb_value prec emax) by assumption. tauto.
Qed.

Lemma range_nan_lemma prec emax L (r : range spec_float) :
  is_valid (Sc := FScalar prec emax L) r S754_nan = false.
Proof. unfold is_valid. cbn. unfold SFleb. destruct (SFcompare S754_nan (rmax r)) eqn:E; [|reflexivity]. discriminate. Qed.

Lemma range_new_real_lemma mn mx :
  (mn <= mx -> range_new mn mx = Some (Range mn mx))%R /\
  (~ mn <= mx -> range_new mn mx = None)%R.
Proof.
  unfold range_new. cbn. unfold Rleb. destruct (Rle_dec mn mx); split; intros; tauto || reflexivity.
Qed.

Lemma range_new_ieee_lemma prec emax L mn mx :
  valid_binary prec emax mn = true -> valid_binary prec emax mx = true ->
  (val_le (sf_value mn) (sf_value mx) ->
     range_new (Sc := FScalar prec emax L) mn mx = Some (Range mn mx)) /\
  (~ val_le (sf_value mn) (sf_value mx) ->
     range_new (Sc := FScalar prec emax L) mn mx = None).
Proof.
  intros H1 H2. unfold range_new. cbn. pose proof (SFleb_value prec emax mn mx H1 H2) as H.
  destruct (SFleb mn mx); split; intros; try reflexivity; exfalso.
  - tauto.
  - apply H in H0. discriminate.
Qed.

(** ** C02 *)
Lemma clamp_real_lemma (r : range R) v :
  (rmin r <= rmax r)%R ->
  (rmin r <= clamp r v <= rmax r)%R /\
  ((rmin r <= v <= rmax r)%R -> clamp r v = v) /\
  ((v < rmin r)%R -> clamp r v = rmin r) /\
  ((rmax r < v)%R -> clamp r v = rmax r) /\
  clamp r (clamp r v) = clamp r v /\
  (forall w, (rmin r <= w <= rmax r)%R -> (Rabs (clamp r v - v) <= Rabs (w - v))%R).
Proof.
  intros Hr. assert (Hle : sle (rmin r) (rmax r) = true) by (apply Rleb_spec; exact Hr).
  repeat split.
  - apply range_real_lemma. apply clamp_valid; [exact Hle|apply R_snum].
  - apply range_real_lemma. apply clamp_valid; [exact Hle|apply R_snum].
  - intros H. apply clamp_id. apply range_real_lemma. exact H.
  - intros H. apply clamp_below. apply Rltb_spec. exact H.
  - intros H. apply clamp_above; [exact Hle|apply R_snum|apply Rltb_spec; exact H|].
    apply Rleb_spec. lra.
  - apply clamp_idem; [exact Hle|apply R_snum].
  - intros w Hw. unfold clamp, sgt. cbn. unfold Rltb.
    destruct (Rlt_dec v (rmin r)); [|destruct (Rlt_dec (rmax r) v)];
      unfold Rabs; repeat destruct Rcase_abs; lra.
Qed.

Lemma val_le_trans a b c : val_le a b -> val_le b c -> val_le a c.
Proof.
  destruct a as [[]|], b as [[]|], c as [[]|]; cbn; try tauto. lra.
Qed.
Lemma val_le_total a b : a <> None -> b <> None -> val_le a b \/ val_le b a.
Proof. destruct a as [[]|], b as [[]|]; cbn; try tauto. lra. Qed.
Lemma val_le_not_none a b : val_le a b -> a <> None /\ b <> None.
Proof. destruct a, b; cbn; try tauto. split; discriminate. Qed.
Lemma sf_value_none x : sf_value x = None <-> is_nan x = true.
Proof. destruct x as [|[]| |]; cbn; split; congruence. Qed.

Lemma clamp_valid_binary prec emax L (r : range spec_float) v :
  valid_binary prec emax (rmin r) = true -> valid_binary prec emax (rmax r) = true ->
  valid_binary prec emax v = true ->
  valid_binary prec emax (clamp (Sc := FScalar prec emax L) r v) = true.
Proof. intros. unfold clamp. destruct (slt _ _); [assumption|]. destruct (sgt _ _); assumption. Qed.

Lemma clamp_ieee_lemma prec emax L (r : range spec_float) v :
  let F := FScalar prec emax L in
  let mn := sf_value (rmin r) in let mx := sf_value (rmax r) in
  valid_binary prec emax (rmin r) = true -> valid_binary prec emax (rmax r) = true ->
  valid_binary prec emax v = true ->
  val_le mn mx -> sf_value v <> None ->
  val_le mn (sf_value (clamp (Sc := F) r v)) /\ val_le (sf_value (clamp (Sc := F) r v)) mx /\
  (val_le mn (sf_value v) -> val_le (sf_value v) mx -> clamp (Sc := F) r v = v) /\
  (~ val_le mn (sf_value v) -> clamp (Sc := F) r v = rmin r) /\
  (~ val_le (sf_value v) mx -> clamp (Sc := F) r v = rmax r) /\
  clamp (Sc := F) r (clamp (Sc := F) r v) = clamp (Sc := F) r v.
Proof.
  cbn zeta. intros V1 V2 V3 Hle Hv. pose proof (F_OrdLaws prec emax L) as HL.
  assert (Hs : @snum _ (FScalar prec emax L) v).
  { apply F_snum. destruct (is_nan v) eqn:E; [|reflexivity]. apply sf_value_none in E. contradiction. }
  assert (Hle' : SFleb (rmin r) (rmax r) = true) by (apply (SFleb_value prec emax); assumption).
  destruct (@sle_num _ _ HL _ _ Hle') as [Hmin Hmax].
  pose proof (@clamp_valid _ (FScalar prec emax L) HL r v Hle' Hs) as Hcv.
  apply range_ieee_lemma in Hcv; [|assumption|assumption|apply clamp_valid_binary; assumption].
  split; [tauto|]. split; [tauto|].
  split; [|split; [|split]].
  - intros H1 H2. apply (@clamp_id _ (FScalar prec emax L) HL).
    apply range_ieee_lemma; auto.
  - intros H. apply clamp_below. rewrite (@slt_not_sle _ _ HL) by assumption. cbn.
    destruct (SFleb (rmin r) v) eqn:E; [|reflexivity].
    apply (SFleb_value prec emax) in E; auto; contradiction.
  - intros H. apply (@clamp_above _ (FScalar prec emax L) HL); try assumption.
    + rewrite (@slt_not_sle _ _ HL) by assumption. cbn.
      destruct (SFleb v (rmax r)) eqn:E; [|reflexivity].
      apply (SFleb_value prec emax) in E; auto; contradiction.
    + cbn. apply (SFleb_value prec emax); auto.
      destruct (val_le_not_none _ _ Hle).
      destruct (val_le_total (sf_value v) (sf_value (rmax r))); auto; [contradiction|].
      eapply val_le_trans; eauto.
  - apply (@clamp_idem _ (FScalar prec emax L) HL); assumption.
Qed.

Lemma clamp_nan_lemma prec emax L (r : range spec_float) :
  clamp (Sc := FScalar prec emax L) r S754_nan = S754_nan.
Proof.
  apply (@clamp_nan _ (FScalar prec emax L) (F_OrdLaws prec emax L)).
  rewrite F_snum. discriminate.
Qed.

Lemma clamp_inverted_lemma (r : range R) :
  (rmax r < rmin r)%R ->
  (forall v, is_valid r (clamp r v) = false) /\
  (exists v, clamp r (clamp r v) <> clamp r v).
Proof.
  intros Hr. split.
  - intros v. destruct (is_valid r (clamp r v)) eqn:E; [|reflexivity].
    apply range_real_lemma in E. lra.
  - exists (rmax r). unfold clamp, sgt. cbn. unfold Rltb.
    repeat destruct Rlt_dec; lra.
Qed.
