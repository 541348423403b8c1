(** * Error of the IEEE operations *)
From Coq Require Import Reals ZArith Bool Lra Lia Psatz Floats.SpecFloat.
From Flocq Require Import Core IEEE754.BinarySingleNaN Plus_error Relative.
From Verif Require Import Scalar ScalarF SpecValues RangeProofs FloatSub SpecFloatErr.
Local Open Scope R_scope.

Section Err.
  Context (prec emax : Z) (Hp : Prec_gt_0 prec) (Hm : Prec_lt_emax prec emax).
  Notation val := (val prec emax).
  Notation u := (unit_roundoff prec).
  Notation mu := (tiny emax).
  Notation fx := (SpecFloat.fexp prec emax).
  Notation rnd := (round radix2 fx ZnearestE).

  Lemma u_pos : 0 < u.
  Proof. apply bpow_gt_0. Qed.
  Lemma mu_pos : 0 < mu.
  Proof. apply bpow_gt_0. Qed.
  Lemma u_ro_u : u_ro radix2 prec = u.
  Proof.
    unfold u_ro, unit_roundoff. replace (- prec + 1)%Z with (1 + - prec)%Z by lia. rewrite bpow_plus. cbn. field.
  Qed.
  Lemma half_emin : / 2 * bpow radix2 (SpecFloat.emin prec emax) = u * mu.
  Proof.
    unfold unit_roundoff, tiny. rewrite <- bpow_plus. replace (SpecFloat.emin prec emax) with (1 + (- prec + (2 - emax)))%Z by (unfold SpecFloat.emin; lia).
    rewrite (bpow_plus _ 1). cbn [bpow]. change (IZR (Z.pow_pos radix2 1)) with 2. field.
  Qed.

  Lemma bpow_pred z : bpow radix2 (z - 1) = bpow radix2 z / 2.
  Proof. unfold Zminus. rewrite bpow_plus. change (bpow radix2 (- 1)) with (/ 2). reflexivity. Qed.

  Lemma val_B x r : val x r <-> exists b : binary_float prec emax, x = B2SF b /\ is_finite b = true /\ B2R b = r.
  Proof.
    split.
    - intros [Hv Hr]. exists (SF2B x Hv). rewrite B2SF_SF2B, is_finite_SF2B, B2R_SF2B.
      destruct x as [s|[]| |s m e]; cbn in *; try discriminate; injection Hr as <-; auto.
    - intros (b & -> & Hf & <-). split; [apply valid_binary_B2SF|]. destruct b; try discriminate; reflexivity.
  Qed.
  Lemma val_fun x r r' : val x r -> val x r' -> r = r'.
  Proof. intros [_ E] [_ E']. congruence. Qed.
  Lemma val_format x r : val x r -> generic_format radix2 fx r.
  Proof. intros H. apply val_B in H as (b & _ & _ & <-). apply generic_format_B2R. Qed.
  Lemma val_lt x r : val x r -> Rabs r < bpow radix2 emax.
  Proof. intros H. apply val_B in H as (b & _ & _ & <-). apply abs_B2R_lt_emax. Qed.

  Lemma add_equiv (x y : binary_float prec emax) : SFadd prec emax (B2SF x) (B2SF y) = B2SF (Bplus mode_NE x y).
  Proof.
    destruct x as [sx|sx| |sx mx ex Bx], y as [sy|sy| |sy my ey By]; try reflexivity; try (simpl; destruct (Bool.eqb _ _); reflexivity).
    apply normalize_equiv.
  Qed.
  Lemma mul_equiv (x y : binary_float prec emax) : SFmul prec emax (B2SF x) (B2SF y) = B2SF (Bmult mode_NE x y).
  Proof.
    destruct x as [sx|sx| |sx mx ex Bx], y as [sy|sy| |sy my ey By]; try reflexivity.
    simpl. rewrite B2SF_SF2B. apply round_aux_equiv.
  Qed.
  Lemma div_equiv (x y : binary_float prec emax) : SFdiv prec emax (B2SF x) (B2SF y) = B2SF (Bdiv mode_NE x y).
  Proof.
    destruct x as [sx|sx| |sx mx ex Bx], y as [sy|sy| |sy my ey By]; try reflexivity.
    simpl. rewrite B2SF_SF2B. destruct (SFdiv_core_binary _ _ _ _ _ _) as [[mz ez] lz]. apply round_aux_equiv.
  Qed.

  (** ** rounding *)
  Lemma rnd_err x : Rabs (rnd x - x) <= u * Rabs x + u * mu.
  Proof.
    destruct (error_N_FLT radix2 (SpecFloat.emin prec emax) prec Hp (fun z => negb (Z.even z)) x) as (eps & eta & He & Ht & _ & E).
    change (round radix2 (FLT_exp (SpecFloat.emin prec emax) prec) ZnearestE x) with (rnd x) in E. rewrite E.
    replace (x * (1 + eps) + eta - x) with (eps * x + eta) by ring.
    eapply Rle_trans; [apply Rabs_triang|]. rewrite Rabs_mult. rewrite half_emin in Ht.
    fold (u_ro radix2 prec) in He. rewrite u_ro_u in He. pose proof (Rabs_pos x). nra.
  Qed.
  Lemma rnd_add_err x y : generic_format radix2 fx x -> generic_format radix2 fx y ->
    Rabs (rnd (x + y) - (x + y)) <= u * Rabs (x + y).
  Proof.
    intros Fx Fy.
    destruct (@FLT_plus_error_N_ex radix2 (SpecFloat.emin prec emax) prec Hp (fun z => negb (Z.even z)) x y Fx Fy) as (eps & He & E).
    change (round radix2 (FLT_exp (SpecFloat.emin prec emax) prec) ZnearestE (x + y)) with (rnd (x + y)) in E. rewrite E.
    replace ((x + y) * (1 + eps) - (x + y)) with (eps * (x + y)) by ring. rewrite Rabs_mult.
    apply Rmult_le_compat_r; [apply Rabs_pos|]. eapply Rle_trans; [exact He|]. eapply Rle_trans; [apply u_rod1pu_ro_le_u_ro|]. rewrite u_ro_u. lra.
  Qed.
  Lemma rnd_small x : Rabs x <= bpow radix2 (emax - 1) -> Rabs (rnd x) < bpow radix2 emax.
  Proof.
    intros H. apply Rle_lt_trans with (bpow radix2 (emax - 1)); [|apply bpow_lt; lia].
    pose proof (fexp_correct prec emax Hp) as Vf. red in Hp, Hm.
    apply abs_round_le_generic; [exact Vf|apply valid_rnd_N| |exact H].
    apply generic_format_bpow. unfold SpecFloat.fexp, SpecFloat.emin. lia.
  Qed.

  Lemma add_ok x y a b : val x a -> val y b -> Rabs (a + b) <= bpow radix2 (emax - 1) ->
    exists c, val (SFadd prec emax x y) c /\ Rabs (c - (a + b)) <= u * Rabs (a + b).
  Proof.
    intros Hx Hy H. pose proof (val_format _ _ Hx) as Fa. pose proof (val_format _ _ Hy) as Fb.
    apply val_B in Hx as (x' & -> & Hfx & <-). apply val_B in Hy as (y' & -> & Hfy & <-).
    pose proof (Bplus_correct prec emax Hp Hm mode_NE x' y' Hfx Hfy) as HC.
    change (round_mode mode_NE) with ZnearestE in HC. rewrite Rlt_bool_true in HC by (apply rnd_small, H). destruct HC as (H1 & H2 & _).
    exists (B2R (Bplus mode_NE x' y')). split; [apply val_B; eexists; split; [apply add_equiv|]; auto|]. rewrite H1. apply rnd_add_err; assumption.
  Qed.
  Lemma sub_ok x y a b : val x a -> val y b -> Rabs (a - b) <= bpow radix2 (emax - 1) ->
    exists c, val (SFsub prec emax x y) c /\ Rabs (c - (a - b)) <= u * Rabs (a - b).
  Proof.
    intros Hx Hy H. pose proof (val_format _ _ Hx) as Fa. pose proof (val_format _ _ Hy) as Fb.
    apply val_B in Hx as (x' & -> & Hfx & <-). apply val_B in Hy as (y' & -> & Hfy & <-).
    pose proof (Bminus_correct prec emax Hp Hm mode_NE x' y' Hfx Hfy) as HC.
    change (round_mode mode_NE) with ZnearestE in HC. rewrite Rlt_bool_true in HC by (apply rnd_small, H). destruct HC as (H1 & H2 & _).
    exists (B2R (Bminus mode_NE x' y')). split; [apply val_B; eexists; split; [apply sub_equiv|]; auto|]. rewrite H1.
    apply (rnd_add_err (B2R x') (- B2R y')); [assumption|]. apply generic_format_opp. assumption.
  Qed.
  Lemma mul_ok x y a b : val x a -> val y b -> Rabs (a * b) <= bpow radix2 (emax - 1) ->
    exists c, val (SFmul prec emax x y) c /\ Rabs (c - a * b) <= u * Rabs (a * b) + u * mu.
  Proof.
    intros Hx Hy H. apply val_B in Hx as (x' & -> & Hfx & <-). apply val_B in Hy as (y' & -> & Hfy & <-).
    pose proof (Bmult_correct prec emax Hp Hm mode_NE x' y') as HC.
    change (round_mode mode_NE) with ZnearestE in HC. rewrite Rlt_bool_true in HC by (apply rnd_small, H). destruct HC as (H1 & H2 & _).
    rewrite Hfx, Hfy in H2.
    exists (B2R (Bmult mode_NE x' y')). split; [apply val_B; eexists; split; [apply mul_equiv|]; auto|]. rewrite H1. apply rnd_err.
  Qed.
  (** halving is exact, or off by less than half the smallest number *)
  Lemma half_ok x y a : val x a -> val y 2 -> exists c, val (SFdiv prec emax x y) c /\ Rabs (c - a / 2) <= u * mu.
  Proof.
    intros Hx Hy. pose proof (val_format _ _ Hx) as Fa. pose proof (val_lt _ _ Hx) as La.
    apply val_B in Hx as (x' & -> & Hfx & <-). apply val_B in Hy as (y' & -> & Hfy & Ey).
    assert (Hy0 : B2R y' <> 0) by (rewrite Ey; lra).
    pose proof (Bdiv_correct prec emax Hp Hm mode_NE x' y' Hy0) as HC. rewrite Ey in HC.
    change (round_mode mode_NE) with ZnearestE in HC.
    assert (Hs : Rabs (B2R x' / 2) <= bpow radix2 (emax - 1)).
    { unfold Rdiv. rewrite Rabs_mult, (Rabs_pos_eq (/ 2)) by lra. rewrite bpow_pred. lra. }
    rewrite Rlt_bool_true in HC by (apply rnd_small, Hs). destruct HC as (H1 & H2 & _).
    exists (B2R (Bdiv mode_NE x' y')). split; [apply val_B; eexists; split; [apply div_equiv|]; split; [congruence|reflexivity]|]. rewrite H1.
    set (e := SpecFloat.emin prec emax) in *. pose proof (fexp_correct prec emax Hp) as Vf. pose proof Hp as Hp'. red in Hp'.
    destruct (Rle_or_lt (bpow radix2 (e + prec)) (Rabs (B2R x'))) as [Hbig|Hsmall].
    - rewrite round_generic; [replace (B2R x' / 2 - B2R x' / 2) with 0 by ring; rewrite Rabs_R0; apply Rmult_le_pos; apply Rlt_le, bpow_gt_0|apply valid_rnd_N|].
      apply (FLT_format_generic radix2 e prec) in Fa as [[m ex] E1 E2 E3]. cbn [Fnum Fexp] in *.
      assert (Hex : (e < ex)%Z).
      { destruct (Z_lt_le_dec e ex) as [|Hle]; [assumption|]. exfalso.
        assert (Rabs (B2R x') < bpow radix2 (e + prec)); [|lra].
        rewrite E1, <- F2R_Zabs. cbn [Fnum Fexp]. unfold F2R. cbn [Fnum Fexp].
        apply Rlt_le_trans with (bpow radix2 prec * bpow radix2 ex).
        - apply Rmult_lt_compat_r; [apply bpow_gt_0|]. rewrite <- IZR_Zpower by lia. apply IZR_lt. exact E2.
        - rewrite <- bpow_plus. apply bpow_le. lia. }
      apply (generic_format_FLT radix2 e prec). exists (Float radix2 m (ex - 1)); cbn [Fnum Fexp]; [|exact E2|lia].
      rewrite E1. unfold F2R. cbn [Fnum Fexp]. rewrite bpow_pred. field.
    - eapply Rle_trans; [apply error_le_half_ulp, Vf|]. rewrite <- half_emin. fold e.
      apply Rmult_le_compat_l; [lra|].
      assert (He : ulp radix2 fx (B2R x' / 2) <= bpow radix2 e); [|exact He].
      eapply Rle_trans; [apply (ulp_le _ _ _ (bpow radix2 (e + prec - 1)))|].
      + rewrite (Rabs_pos_eq (bpow _ _)) by apply bpow_ge_0. unfold Rdiv. rewrite Rabs_mult, (Rabs_pos_eq (/ 2)) by lra.
        rewrite bpow_pred. lra.
      + rewrite ulp_bpow. unfold SpecFloat.fexp. fold e. apply bpow_le. lia.
  Qed.
End Err.
