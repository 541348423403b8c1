(** * C01, C02: ranges *)
From Coq Require Import Reals ZArith Floats.SpecFloat Lra.
From Verif Require Import Scalar ScalarR ScalarF Geometry Joint SpecValues RangeProofs.

(** C01 over the reals: membership is the closed interval, [Range::new] accepts
    exactly ordered bounds ([None] is its panic). *)
Theorem C01_range_real (r : range R) (v mn mx : R) :
  (is_valid r v = true <-> (rmin r <= v <= rmax r)%R) /\
  ((mn <= mx)%R -> range_new mn mx = Some (Range mn mx)) /\
  (~ (mn <= mx)%R -> range_new mn mx = None).
Proof. exact (conj (range_real_lemma r v) (range_new_real_lemma mn mx)). Qed.
Print Assumptions C01_range_real.

(** C01.  Conversions: [Range::from(a..=b)] (src/joint/range.rs:92-95) keeps the
    order of the two ends and is [Range::new] of them, over any scalar. *)
Theorem C01_range_from {T} `{Scalar T} (a b : T) :
  range_from (a, b) = range_new a b /\
  (forall r, range_from (a, b) = Some r -> rmin r = a /\ rmax r = b).
Proof.
  split; [reflexivity|]. intros r. unfold range_from, range_new. cbn [fst snd].
  destruct (sle a b); [|discriminate]. intros E. injection E as <-. split; reflexivity.
Qed.
Print Assumptions C01_range_from.

(** C01 for IEEE numbers of any format ([53 1024] is f64, [24 128] is f32):
    membership and [Range::new] compare the denoted extended reals; NaN, which
    denotes nothing, is outside every range and is no bound. *)
Theorem C01_range_ieee (prec emax : Z) (L : libm) (r : range spec_float) (v mn mx : spec_float) :
  valid_binary prec emax (rmin r) = true -> valid_binary prec emax (rmax r) = true ->
  valid_binary prec emax v = true -> valid_binary prec emax mn = true ->
  valid_binary prec emax mx = true ->
  (is_valid (Sc := FScalar prec emax L) r v = true <->
     val_le (sf_value (rmin r)) (sf_value v) /\ val_le (sf_value v) (sf_value (rmax r))) /\
  is_valid (Sc := FScalar prec emax L) r S754_nan = false /\
  (val_le (sf_value mn) (sf_value mx) ->
     range_new (Sc := FScalar prec emax L) mn mx = Some (Range mn mx)) /\
  (~ val_le (sf_value mn) (sf_value mx) ->
     range_new (Sc := FScalar prec emax L) mn mx = None).
Proof.
  exact (fun H1 H2 H3 H4 H5 =>
    conj (range_ieee_lemma prec emax L r v H1 H2 H3)
      (conj (range_nan_lemma prec emax L r) (range_new_ieee_lemma prec emax L mn mx H4 H5))).
Qed.
Print Assumptions C01_range_ieee.

Example C01_ieee_case :
  let one := SFofZ 53 1024 1 in let two := SFofZ 53 1024 2 in
  let L := Build_libm (fun x => x) (fun x => x) (fun x _ => x) in
  valid_binary 53 1024 one = true /\ valid_binary 53 1024 two = true /\
  is_valid (Sc := F64 L) (Range one two) two = true /\
  is_valid (Sc := F64 L) (Range one two) (S754_infinity false) = false /\
  range_new (Sc := F64 L) two one = None /\ range_new (Sc := F64 L) S754_nan one = None.
Proof. vm_compute. repeat split; reflexivity. Qed.

(** C02 over the reals: the nearest admissible value, idempotent. *)
Theorem C02_clamp_real (r : range R) (v : R) :
  (rmin r <= rmax r)%R ->
  (rmin r <= clamp r v <= rmax r)%R /\
  ((rmin r <= v <= rmax r)%R -> clamp r v = v) /\
  ((v < rmin r)%R -> clamp r v = rmin r) /\
  ((rmax r < v)%R -> clamp r v = rmax r) /\
  clamp r (clamp r v) = clamp r v /\
  (forall w, (rmin r <= w <= rmax r)%R -> (Rabs (clamp r v - v) <= Rabs (w - v))%R).
Proof. exact (clamp_real_lemma r v). Qed.
Print Assumptions C02_clamp_real.

(** C02 for IEEE numbers. *)
Theorem C02_clamp_ieee (prec emax : Z) (L : libm) (r : range spec_float) (v : spec_float) :
  let F := FScalar prec emax L in
  let mn := sf_value (rmin r) in let mx := sf_value (rmax r) in
  valid_binary prec emax (rmin r) = true -> valid_binary prec emax (rmax r) = true ->
  valid_binary prec emax v = true ->
  val_le mn mx -> sf_value v <> None ->
  val_le mn (sf_value (clamp (Sc := F) r v)) /\ val_le (sf_value (clamp (Sc := F) r v)) mx /\
  (val_le mn (sf_value v) -> val_le (sf_value v) mx -> clamp (Sc := F) r v = v) /\
  (~ val_le mn (sf_value v) -> clamp (Sc := F) r v = rmin r) /\
  (~ val_le (sf_value v) mx -> clamp (Sc := F) r v = rmax r) /\
  clamp (Sc := F) r (clamp (Sc := F) r v) = clamp (Sc := F) r v.
Proof. exact (clamp_ieee_lemma prec emax L r v). Qed.
Print Assumptions C02_clamp_ieee.

(** A NaN passes through unchanged and is not valid. *)
Theorem C02_clamp_nan (prec emax : Z) (L : libm) (r : range spec_float) :
  clamp (Sc := FScalar prec emax L) r S754_nan = S754_nan /\
  is_valid (Sc := FScalar prec emax L) r S754_nan = false.
Proof. exact (conj (clamp_nan_lemma prec emax L r) (range_nan_lemma prec emax L r)). Qed.
Print Assumptions C02_clamp_nan.

(** With inverted bounds nothing clamps to a valid value, and clamping again
    changes the result for some value. *)
Theorem C02_clamp_inverted_refuted (r : range R) :
  (rmax r < rmin r)%R ->
  (forall v, is_valid r (clamp r v) = false) /\
  (exists v, clamp r (clamp r v) <> clamp r v).
Proof. exact (clamp_inverted_lemma r). Qed.
Print Assumptions C02_clamp_inverted_refuted.

Example C02_real_case : clamp (Range (-1) 1)%R 3%R = 1%R.
Proof. apply (C02_clamp_real (Range (-1) 1)%R 3%R); cbn; lra. Qed.
Example C02_ieee_case :
  let one := SFofZ 24 128 1 in let two := SFofZ 24 128 2 in let three := SFofZ 24 128 3 in
  let L := Build_libm (fun x => x) (fun x => x) (fun x _ => x) in
  clamp (Sc := F32 L) (Range one two) three = two /\
  clamp (Sc := F32 L) (Range one two) (S754_zero true) = one /\
  clamp (Sc := F32 L) (Range one three) two = two /\
  valid_binary 24 128 three = true.
Proof. vm_compute. repeat split; reflexivity. Qed.
