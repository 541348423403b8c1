(** * IEEE-754 instances of [Scalar] (f32 and f64), on the standard library's
    axiom-free specification floats [Coq.Floats.SpecFloat].

    All operations round to nearest, ties to even.  [spec_float] also contains
    bit patterns that are not canonical for a format; the comparison laws below
    hold for them as well, so quantifying over the whole type only strengthens the
    theorems.  The transcendental functions are those of an arbitrary libm. *)
From Coq Require Import ZArith QArith Bool Floats.SpecFloat.
From Verif Require Import Scalar.

(** What libm provides; nothing is assumed about it. *)
Record libm := {
  lm_sin : spec_float -> spec_float;
  lm_cos : spec_float -> spec_float;
  lm_atan2 : spec_float -> spec_float -> spec_float;
}.

Section Fmt.
  Context (prec emax : Z) (L : libm).

  Definition SFofZ (z : Z) : spec_float := binary_normalize prec emax z 0 false.

  Definition FScalar : Scalar spec_float := {|
    szero := S754_zero false;
    sone := SFofZ 1;
    sadd := SFadd prec emax;
    ssub := SFsub prec emax;
    smul := SFmul prec emax;
    sdiv := SFdiv prec emax;
    sneg := SFopp;
    sle := SFleb;
    slt := SFltb;
    seqb := SFeqb;
    ssin := lm_sin L; scos := lm_cos L; satan2 := lm_atan2 L;
    ssqrt := SFsqrt prec emax;
    sabs := SFabs;
    sofQ := fun q => SFdiv prec emax (SFofZ (Qnum q)) (SFofZ (Zpos (Qden q)));
  |}.
End Fmt.

Definition F64 (L : libm) : Scalar spec_float := FScalar 53 1024 L.
Definition F32 (L : libm) : Scalar spec_float := FScalar 24 128 L.

(** conversion into a format, rounding to nearest (Rust: [as f32], na::convert) *)
Definition SFconv (prec emax : Z) (x : spec_float) : spec_float :=
  match x with
  | S754_finite s m e => binary_round prec emax s m e
  | _ => x
  end.

(** ** Comparison laws *)
Definition is_nan (x : spec_float) : bool :=
  match x with S754_nan => true | _ => false end.

Lemma SFcompare_nan x y :
  SFcompare x y = None <-> is_nan x = true \/ is_nan y = true.
Proof.
  destruct x as [sx|sx| |sx mx ex], y as [sy|sy| |sy my ey]; simpl;
    try (split; [intros H; discriminate H || (now right) || (now left)
                | intros [H|H]; discriminate H || reflexivity]);
    try (destruct sx; try destruct sy); simpl;
    try (destruct (ex ?= ey)%Z); 
    (split; [intros H; discriminate H | intros [H|H]; discriminate H]).
Qed.

Lemma SFcompare_swap x y :
  SFcompare y x = match SFcompare x y with Some c => Some (CompOpp c) | None => None end.
Proof.
  assert (HZ : forall a b, (b ?= a)%Z = CompOpp (a ?= b)%Z)
    by (intros; apply Z.compare_antisym).
  assert (HP : forall a b, Pos.compare_cont Eq b a = CompOpp (Pos.compare_cont Eq a b))
    by (intros a b; apply (Pos.compare_antisym a b)).
  destruct x as [sx|sx| |sx mx ex], y as [sy|sy| |sy my ey]; simpl; try reflexivity;
    try destruct sx; try destruct sy; simpl; try reflexivity;
    rewrite (HZ ex ey); destruct (ex ?= ey)%Z; simpl; try reflexivity;
    rewrite (HP mx my); destruct (Pos.compare_cont Eq mx my); reflexivity.
Qed.

Lemma SFcompare_refl x : is_nan x = false -> SFcompare x x = Some Eq.
Proof.
  destruct x as [sx|sx| |sx mx ex]; simpl; intros H; try discriminate; try reflexivity.
  - destruct sx; reflexivity.
  - rewrite Z.compare_refl.
    change (Pos.compare_cont Eq mx mx) with (mx ?= mx)%positive.
    rewrite Pos.compare_refl. destruct sx; reflexivity.
Qed.

Lemma F_snum prec emax L x :
  @snum _ (FScalar prec emax L) x <-> is_nan x = false.
Proof.
  unfold snum; simpl; unfold SFleb. destruct (is_nan x) eqn:E.
  - split; intros H; [|discriminate]. destruct x; try discriminate.
  - rewrite SFcompare_refl by assumption. tauto.
Qed.

Lemma F_OrdLaws prec emax L : @OrdLaws _ (FScalar prec emax L).
Proof.
  constructor.
  - intros x y H. rewrite !F_snum. simpl in H. unfold SFleb in H.
    destruct (is_nan x) eqn:Ex; [|destruct (is_nan y) eqn:Ey; [|tauto]].
    + rewrite (proj2 (SFcompare_nan x y)) in H by now left. discriminate.
    + rewrite (proj2 (SFcompare_nan x y)) in H by now right. discriminate.
  - intros x y Hx Hy. rewrite F_snum in Hx, Hy. simpl. unfold SFltb, SFleb.
    rewrite (SFcompare_swap x y).
    destruct (SFcompare x y) as [c|] eqn:E; [destruct c; reflexivity|].
    apply SFcompare_nan in E. destruct E; congruence.
  - intros x y H. rewrite !F_snum. simpl in H. unfold SFltb in H.
    destruct (is_nan x) eqn:Ex; [|destruct (is_nan y) eqn:Ey; [|tauto]].
    + rewrite (proj2 (SFcompare_nan x y)) in H by now left. discriminate.
    + rewrite (proj2 (SFcompare_nan x y)) in H by now right. discriminate.
  - reflexivity.
Qed.
