(** * From a finite result back to the operands: nothing overflowed on the way *)
From Coq Require Import Reals ZArith Bool Lra Lia Psatz Floats.SpecFloat.
From Flocq Require Import Core IEEE754.BinarySingleNaN.
From Verif Require Import Scalar ScalarF Geometry SpecValues FloatSub SpecFloatErr FloatErr.
Local Open Scope R_scope.

Section Back.
  Context (prec emax : Z) (Hp : Prec_gt_0 prec) (Hm : Prec_lt_emax prec emax) (L : libm).
  Notation val := (val prec emax).
  Notation u := (unit_roundoff prec).
  Notation mu := (tiny emax).
  Notation fx := (SpecFloat.fexp prec emax).
  Notation rnd := (round radix2 fx ZnearestE).
  Notation valid x := (valid_binary prec emax x = true).
  Notation FS := (FScalar prec emax L).

  Lemma finite_B (b : binary_float prec emax) r : val (B2SF b) r -> is_finite b = true /\ B2R b = r.
  Proof. intros [_ H]. destruct b as [s|[]| |s m e Hb]; cbn in *; try discriminate; injection H as <-; auto. Qed.
  Lemma overflow_B (b : binary_float prec emax) s r : B2SF b = binary_overflow prec emax mode_NE s -> val (B2SF b) r -> False.
  Proof. intros E [_ H]. rewrite E in H. destruct s; discriminate. Qed.
  Lemma to_B x : valid x -> exists b : binary_float prec emax, x = B2SF b.
  Proof. intros H. exists (SF2B x H). symmetry. apply B2SF_SF2B. Qed.
  Lemma B_val (b : binary_float prec emax) : is_finite b = true -> val (B2SF b) (B2R b).
  Proof. intros H. apply val_B. eauto. Qed.

  Lemma add_valid x y : valid x -> valid y -> valid (SFadd prec emax x y).
  Proof. intros Hx Hy. apply to_B in Hx as [a ->]. apply to_B in Hy as [b ->]. rewrite (add_equiv prec emax Hp Hm). apply valid_binary_B2SF. Qed.
  Lemma sub_valid x y : valid x -> valid y -> valid (SFsub prec emax x y).
  Proof. intros Hx Hy. apply to_B in Hx as [a ->]. apply to_B in Hy as [b ->]. rewrite (sub_equiv prec emax Hp Hm). apply valid_binary_B2SF. Qed.
  Lemma mul_valid x y : valid x -> valid y -> valid (SFmul prec emax x y).
  Proof. intros Hx Hy. apply to_B in Hx as [a ->]. apply to_B in Hy as [b ->]. rewrite (mul_equiv prec emax Hp Hm). apply valid_binary_B2SF. Qed.
  Lemma div_valid x y : valid x -> valid y -> valid (SFdiv prec emax x y).
  Proof. intros Hx Hy. apply to_B in Hx as [a ->]. apply to_B in Hy as [b ->]. rewrite (div_equiv prec emax Hp Hm). apply valid_binary_B2SF. Qed.
  Lemma sqrt_equiv (x : binary_float prec emax) : SFsqrt prec emax (B2SF x) = B2SF (Bsqrt mode_NE x).
  Proof.
    destruct x as [sx|[]| |[] mx ex Bx]; try reflexivity.
    simpl. rewrite B2SF_SF2B. destruct (SFsqrt_core_binary _ _ _ _) as [[mz ez] lz]. apply round_aux_equiv.
  Qed.
  Lemma sqrt_valid x : valid x -> valid (SFsqrt prec emax x).
  Proof. intros Hx. apply to_B in Hx as [a ->]. rewrite sqrt_equiv. apply valid_binary_B2SF. Qed.

  Lemma add_back x y c : valid x -> valid y -> val (SFadd prec emax x y) c -> exists a b, val x a /\ val y b /\ c = rnd (a + b).
  Proof.
    intros Hx Hy Hc. apply to_B in Hx as [x' ->]. apply to_B in Hy as [y' ->]. rewrite (add_equiv prec emax Hp Hm) in Hc.
    assert (Hf : is_finite x' = true /\ is_finite y' = true).
    { apply finite_B in Hc as [Hc _]. destruct x' as [sx|sx| |sx mx ex Bx], y' as [sy|sy| |sy my ey By]; try discriminate Hc; auto.
      simpl in Hc. destruct (Bool.eqb _ _); discriminate. }
    destruct Hf as [Fx Fy]. exists (B2R x'), (B2R y'). split; [apply B_val, Fx|]. split; [apply B_val, Fy|].
    pose proof (Bplus_correct prec emax Hp Hm mode_NE x' y' Fx Fy) as HC. change (round_mode mode_NE) with ZnearestE in HC.
    destruct (Rlt_bool _ _); [|exfalso; eapply overflow_B; [apply (proj1 HC)|exact Hc]].
    apply finite_B in Hc as [_ <-]. exact (proj1 HC).
  Qed.
  Lemma sub_back x y c : valid x -> valid y -> val (SFsub prec emax x y) c -> exists a b, val x a /\ val y b /\ c = rnd (a - b).
  Proof.
    intros Hx Hy Hc. apply to_B in Hx as [x' ->]. apply to_B in Hy as [y' ->]. rewrite (sub_equiv prec emax Hp Hm) in Hc.
    assert (Hf : is_finite x' = true /\ is_finite y' = true).
    { apply finite_B in Hc as [Hc _]. destruct x' as [sx|sx| |sx mx ex Bx], y' as [sy|sy| |sy my ey By]; try discriminate Hc; auto.
      simpl in Hc. destruct (Bool.eqb _ _); discriminate. }
    destruct Hf as [Fx Fy]. exists (B2R x'), (B2R y'). split; [apply B_val, Fx|]. split; [apply B_val, Fy|].
    pose proof (Bminus_correct prec emax Hp Hm mode_NE x' y' Fx Fy) as HC. change (round_mode mode_NE) with ZnearestE in HC.
    destruct (Rlt_bool _ _); [|exfalso; eapply overflow_B; [apply (proj1 HC)|exact Hc]].
    apply finite_B in Hc as [_ <-]. exact (proj1 HC).
  Qed.
  Lemma mul_back x y c : valid x -> valid y -> val (SFmul prec emax x y) c -> exists a b, val x a /\ val y b /\ c = rnd (a * b).
  Proof.
    intros Hx Hy Hc. apply to_B in Hx as [x' ->]. apply to_B in Hy as [y' ->]. rewrite (mul_equiv prec emax Hp Hm) in Hc.
    pose proof (Bmult_correct prec emax Hp Hm mode_NE x' y') as HC. change (round_mode mode_NE) with ZnearestE in HC.
    destruct (Rlt_bool _ _); [|exfalso; eapply overflow_B; [apply HC|exact Hc]].
    apply finite_B in Hc as [Hf <-]. destruct HC as (H1 & H2 & _). rewrite Hf in H2. symmetry in H2. apply andb_true_iff in H2 as [Fx Fy].
    exists (B2R x'), (B2R y'). split; [apply B_val, Fx|]. split; [apply B_val, Fy|]. exact H1.
  Qed.
  (** the divisor is known to be finite *)
  Lemma div_back x y c b : valid x -> val y b -> b <> 0 -> val (SFdiv prec emax x y) c -> exists a, val x a /\ c = rnd (a / b).
  Proof.
    intros Hx Hy Hb Hc. apply to_B in Hx as [x' ->]. apply val_B in Hy as (y' & -> & Fy & <-). rewrite (div_equiv prec emax Hp Hm) in Hc.
    pose proof (Bdiv_correct prec emax Hp Hm mode_NE x' y' Hb) as HC. change (round_mode mode_NE) with ZnearestE in HC.
    destruct (Rlt_bool _ _); [|exfalso; eapply overflow_B; [apply HC|exact Hc]].
    apply finite_B in Hc as [Hf <-]. destruct HC as (H1 & H2 & _). rewrite Hf in H2. exists (B2R x'). split; [apply B_val; congruence|exact H1].
  Qed.
  Lemma sqrt_back x c : valid x -> val (SFsqrt prec emax x) c -> exists a, val x a /\ 0 <= a /\ c = rnd (R_sqrt.sqrt a).
  Proof.
    intros Hx Hc. apply to_B in Hx as [x' ->]. rewrite sqrt_equiv in Hc. apply finite_B in Hc as [Hf <-].
    destruct (Bsqrt_correct prec emax Hp Hm mode_NE x') as (H1 & H2 & _). rewrite Hf in H2.
    exists (B2R x'). destruct x' as [s|s| |[] m e Bx]; try discriminate H2; (split; [apply B_val; reflexivity|]); (split; [|exact H1]); [cbn; lra|].
    unfold B2R. apply F2R_ge_0. cbn. lia.
  Qed.
  Lemma sqrt_fwd x a : val x a -> 0 <= a -> val (SFsqrt prec emax x) (rnd (R_sqrt.sqrt a)).
  Proof.
    intros Hx Ha. apply val_B in Hx as (x' & -> & Hf & <-). rewrite sqrt_equiv.
    destruct (Bsqrt_correct prec emax Hp Hm mode_NE x') as (H1 & H2 & _). change (round_mode mode_NE) with ZnearestE in H1. rewrite <- H1. apply B_val. rewrite H2.
    destruct x' as [s|s| |[] m e Bx]; try discriminate Hf; try reflexivity. exfalso. unfold B2R in Ha.
    assert (F2R (Float radix2 (cond_Zopp true (Z.pos m)) e) < 0) by (apply F2R_lt_0; cbn; lia). lra.
  Qed.
  Lemma lt_back x y c : valid x -> val y c -> SFltb x y = true -> (exists a, val x a /\ a < c) \/ x = S754_infinity true.
  Proof.
    intros Hx Hy H. apply to_B in Hx as [x' ->]. apply val_B in Hy as (y' & -> & Fy & <-).
    destruct (is_finite x') eqn:Fx.
    - left. exists (B2R x'). split; [apply B_val, Fx|]. pose proof (Bltb_correct _ _ x' y' Fx Fy) as HC. unfold Bltb in HC. rewrite H in HC.
      symmetry in HC. destruct (Rlt_bool_spec (B2R x') (B2R y')); [assumption|discriminate].
    - right. destruct x' as [s|[]| |s m e Bx]; try discriminate Fx; try reflexivity; destruct y' as [sy|sy| |[] my ey By]; discriminate.
  Qed.
  Lemma gt_fwd x y a b : val x a -> val y b -> SFltb x y = true <-> a < b.
  Proof.
    intros Hx Hy. apply val_B in Hx as (x' & -> & Fx & <-). apply val_B in Hy as (y' & -> & Fy & <-).
    pose proof (Bltb_correct _ _ x' y' Fx Fy) as HC. unfold Bltb in HC. rewrite HC. destruct (Rlt_bool_spec (B2R x') (B2R y')); split; intros; try assumption; try reflexivity; [discriminate|lra].
  Qed.
  Lemma rnd_sub_ge a b : generic_format radix2 fx a -> generic_format radix2 fx b -> (1 - u) * Rabs (a - b) <= Rabs (rnd (a - b)).
  Proof.
    intros Fa Fb. pose proof (rnd_add_err prec emax Hp a (- b) Fa (generic_format_opp _ _ _ Fb)) as H. fold (a - b) in H.
    pose proof (Rabs_triang_inv (a - b) (a - b - rnd (a - b))) as H1. replace (a - b - (a - b - rnd (a - b))) with (rnd (a - b)) in H1 by ring.
    rewrite (Rabs_minus_sym (a - b) (rnd (a - b))) in H1. lra.
  Qed.
End Back.
