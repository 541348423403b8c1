(** * IEEE subtraction and conversion between formats: facts used by the URDF limits *)
From Coq Require Import Reals ZArith Bool Lra Lia Floats.SpecFloat.
From Flocq Require Import Core IEEE754.BinarySingleNaN Plus_error.
From Verif Require Import Scalar ScalarF SpecValues RangeProofs.

Section Equiv.
  Context (prec emax : Z) (Hp : Prec_gt_0 prec) (Hm : Prec_lt_emax prec emax).

  Lemma rne_equiv s m l : round_nearest_even m l = choice_mode mode_NE s m l.
  Proof. destruct l as [|c]; [reflexivity|]. destruct c; [|reflexivity..]. simpl. unfold Round.cond_incr. destruct (Z.even m); reflexivity. Qed.
  Lemma round_aux_equiv sx mx ex lx : SpecFloat.binary_round_aux prec emax sx mx ex lx = binary_round_aux prec emax mode_NE sx mx ex lx.
  Proof.
    unfold SpecFloat.binary_round_aux, binary_round_aux. destruct (shr_fexp prec emax mx ex lx) as [mrs' e']. simpl. rewrite (rne_equiv sx). reflexivity.
  Qed.
  Lemma round_equiv s m e : SpecFloat.binary_round prec emax s m e = binary_round prec emax mode_NE s m e.
  Proof. unfold SpecFloat.binary_round, binary_round, shl_align_fexp. destruct (shl_align _ _ _). apply round_aux_equiv. Qed.
  Lemma normalize_equiv m e sz : SpecFloat.binary_normalize prec emax m e sz = B2SF (binary_normalize prec emax Hp Hm mode_NE m e sz).
  Proof. destruct m as [|p|p]; [reflexivity| |]; simpl; rewrite B2SF_SF2B; apply round_equiv. Qed.
  Lemma sub_equiv (x y : binary_float prec emax) : SFsub prec emax (B2SF x) (B2SF y) = B2SF (Bminus mode_NE x y).
  Proof.
    destruct x as [sx|sx| |sx mx ex Bx], y as [sy|sy| |sy my ey By]; try reflexivity; try (simpl; destruct (Bool.eqb _ _); reflexivity).
    simpl. unfold Zminus. rewrite <- cond_Zopp_negb. apply normalize_equiv.
  Qed.
  Lemma eqb_zero (z : spec_float) : SFeqb z (S754_zero false) = true <-> exists s, z = S754_zero s.
  Proof.
    destruct z as [s|s| |s m e]; simpl; split; try discriminate; try eauto; try (intros [? H]; discriminate H); try destruct s; try discriminate; reflexivity.
  Qed.

  (** the difference of two floats is zero exactly when they are finite and equal:
      no underflow to zero (gradual underflow) *)
  Lemma sub_zero_value x y : valid_binary prec emax x = true -> valid_binary prec emax y = true ->
    SFeqb (SFsub prec emax x y) (S754_zero false) = true <-> exists r, sf_value x = Some (Fin r) /\ sf_value y = Some (Fin r).
  Proof.
    intros Hx Hy. rewrite <- (B2SF_SF2B _ _ x Hx), <- (B2SF_SF2B _ _ y Hy). generalize (SF2B x Hx) (SF2B y Hy). clear x y Hx Hy. intros x y. rewrite sub_equiv.
    assert (Hv : forall z : binary_float prec emax, is_finite z = true -> sf_value (B2SF z) = Some (Fin (B2R z))) by (intros [s|s| |s m e Hz] H; (discriminate || reflexivity)).
    assert (Hnf : forall z : binary_float prec emax, is_finite z = false -> forall r, sf_value (B2SF z) <> Some (Fin r)) by (intros [s|s| |s m e Hz] H r; try discriminate; destruct s; discriminate).
    destruct (is_finite x) eqn:Fx.
    2:{ split; [|intros (r & E & _); exfalso; eapply Hnf; eauto]. intros H. apply eqb_zero in H as [s H].
        destruct x as [sx|sx| |sx mx ex Bx], y as [sy|sy| |sy my ey By]; try discriminate; simpl in H; try discriminate; destruct (Bool.eqb _ _); discriminate. }
    destruct (is_finite y) eqn:Fy.
    2:{ split; [|intros (r & _ & E); exfalso; eapply (Hnf y); eauto]. intros H. apply eqb_zero in H as [s H].
        destruct x as [sx|sx| |sx mx ex Bx], y as [sy|sy| |sy my ey By]; try discriminate; simpl in H; try discriminate; destruct (Bool.eqb _ _); discriminate. }
    rewrite (Hv x Fx), (Hv y Fy). pose proof (Bminus_correct prec emax Hp Hm mode_NE x y Fx Fy) as HC.
    destruct (Rlt_bool _ _) eqn:Eb.
    - destruct HC as (H1 & H2 & _). split.
      + intros H. apply eqb_zero in H as [s H]. assert (H0 : B2R (Bminus mode_NE x y) = 0%R) by (destruct (Bminus mode_NE x y); simpl in H; try discriminate; reflexivity).
        rewrite H0 in H1. symmetry in H1. unfold Rminus in H1.
        pose proof (fexp_correct prec emax Hp) as Vf.
        pose proof (@round_plus_eq_0 radix2 _ Vf (@monotone_exp_not_FTZ _ Vf (fexp_monotone prec emax)) _ (valid_rnd_round_mode mode_NE) (B2R x) (- B2R y)
          (generic_format_B2R _ _ x) (generic_format_opp _ _ _ (generic_format_B2R _ _ y)) H1) as H3.
        exists (B2R x). split; [reflexivity|]. do 2 f_equal. lra.
      + intros (r & E1 & E2). injection E1 as E1. injection E2 as E2. rewrite E1, E2, Rminus_diag_eq, round_0 in H1 by (reflexivity || apply valid_rnd_round_mode). apply eqb_zero.
        destruct (Bminus mode_NE x y) as [s|s| |s m e Hz]; try discriminate; [eexists; reflexivity|]. exfalso. 
        simpl in H1. apply eq_0_F2R in H1. destruct s; discriminate.
    - destruct HC as [HC _]. split.
      + intros H. apply eqb_zero in H as [s H]. rewrite H in HC. discriminate.
      + intros (r & E1 & E2). injection E1 as E1. injection E2 as E2. exfalso. rewrite E1, E2, Rminus_diag_eq, round_0, Rabs_R0 in Eb by (reflexivity || apply valid_rnd_round_mode).
        rewrite Rlt_bool_true in Eb by apply bpow_gt_0. discriminate.
  Qed.

  (** ** conversion into this format, rounding to nearest *)
  Notation SFconv := (SFconv prec emax).
  Lemma conv_valid x : valid_binary prec emax (SFconv x) = true.
  Proof.
    destruct x as [s|s| |s m e]; try reflexivity. simpl. rewrite round_equiv. apply (binary_round_correct prec emax Hp Hm mode_NE s m e).
  Qed.
  Let fx := SpecFloat.fexp prec emax.
  Let rnd := round radix2 fx ZnearestE.
  (** the value of a converted number: rounded, or infinite if that is too large *)
  Lemma conv_value s m e : let r := (IZR (cond_Zopp s (Zpos m)) * bpow radix2 e)%R in
    sf_value (SFconv (S754_finite s m e)) =
    Some (if Rlt_bool (Rabs (rnd r)) (bpow radix2 emax) then Fin (rnd r) else if s then NInf else PInf).
  Proof.
    intros r. simpl. rewrite round_equiv. destruct (binary_round_correct prec emax Hp Hm mode_NE s m e) as [Hv HC]. cbv zeta in HC.
    change (F2R (Float radix2 (cond_Zopp s (Zpos m)) e)) with r in HC. change (round radix2 (SpecFloat.fexp prec emax) (round_mode mode_NE) r) with (rnd r) in HC.
    destruct (Rlt_bool (Rabs (rnd r)) (bpow radix2 emax)).
    - destruct HC as (H1 & H2 & _). destruct (binary_round prec emax mode_NE s m e) as [s'|s'| |s' m' e']; simpl in *; try discriminate; rewrite <- H1; reflexivity.
    - rewrite HC. destruct s; reflexivity.
  Qed.
  Lemma rnd_mono x y : (x <= y)%R -> (rnd x <= rnd y)%R.
  Proof. pose proof (fexp_correct prec emax Hp) as Vf. apply round_le; [exact Vf|apply valid_rnd_N]. Qed.
  Lemma rnd_0 : rnd 0 = 0%R.
  Proof. apply round_0, valid_rnd_N. Qed.
  (** converting keeps the order *)
  Lemma conv_mono x y : val_le (sf_value x) (sf_value y) -> val_le (sf_value (SFconv x)) (sf_value (SFconv y)).
  Proof.
    assert (Hs : forall s m e, (s = true -> rnd (IZR (cond_Zopp s (Zpos m)) * bpow radix2 e) <= 0)%R /\ (s = false -> 0 <= rnd (IZR (cond_Zopp s (Zpos m)) * bpow radix2 e))%R).
    { intros s m e. destruct (pos_F2R s m e) as [P1 P2]. split; intros ->; rewrite <- rnd_0; apply rnd_mono; [apply Rlt_le, P1|apply Rlt_le, P2]; reflexivity. }
    destruct x as [sx|sx| |sx mx ex], y as [sy|sy| |sy my ey]; try (simpl; tauto); try (destruct sx; simpl; tauto); try (destruct sy; simpl; tauto); try (destruct sx, sy; simpl; tauto).
    - rewrite conv_value. cbn [sf_value SFconv val_le ext_le]. intros H. set (r := (IZR _ * _)%R) in *. destruct (Rlt_bool _ _) eqn:E.
      + rewrite <- rnd_0. apply rnd_mono. exact H.
      + destruct sy; [|exact I]. destruct (pos_F2R true my ey) as [P1 _]. fold r in P1. assert (r < 0)%R by (apply P1; reflexivity). lra.
    - rewrite conv_value. cbn [SFconv]. destruct sx; [simpl; tauto|]. simpl. tauto.
    - rewrite conv_value. cbn [sf_value SFconv val_le ext_le]. intros H. set (r := (IZR _ * _)%R) in *. destruct (Rlt_bool _ _) eqn:E.
      + rewrite <- rnd_0. apply rnd_mono. exact H.
      + destruct sx; [exact I|]. destruct (pos_F2R false mx ex) as [_ P1]. fold r in P1. assert (0 < r)%R by (apply P1; reflexivity). lra.
    - rewrite conv_value. cbn [SFconv]. destruct sy; [simpl; tauto|]. simpl. destruct (Rlt_bool _ _); [tauto|]. destruct sx; tauto.
    - rewrite !conv_value. cbn [sf_value val_le ext_le]. set (rx := (IZR (cond_Zopp sx _) * _)%R). set (ry := (IZR (cond_Zopp sy _) * _)%R). intros H. pose proof (rnd_mono rx ry H) as Hr.
      destruct (Hs sx mx ex) as [Sx1 Sx2], (Hs sy my ey) as [Sy1 Sy2]. fold rx in Sx1, Sx2. fold ry in Sy1, Sy2.
      destruct (Rlt_bool_spec (Rabs (rnd rx)) (bpow radix2 emax)) as [Ex|Ex], (Rlt_bool_spec (Rabs (rnd ry)) (bpow radix2 emax)) as [Ey|Ey].
      + exact Hr.
      + destruct sy; [|exact I]. specialize (Sy1 eq_refl). rewrite Rabs_left1 in Ey by exact Sy1.
        destruct (Rle_or_lt (rnd rx) 0) as [Hn|Hn]; [rewrite Rabs_left1 in Ex by exact Hn; lra|lra].
      + destruct sx; [exact I|]. specialize (Sx2 eq_refl). rewrite Rabs_right in Ex by lra. rewrite Rabs_right in Ey by lra. lra.
      + destruct sx; [destruct sy; exact I|]. destruct sy; [|exact I]. exfalso. specialize (Sx2 eq_refl). specialize (Sy1 eq_refl).
        assert (Hb := bpow_gt_0 radix2 emax). rewrite Rabs_right in Ex by lra. lra.
  Qed.
End Equiv.
