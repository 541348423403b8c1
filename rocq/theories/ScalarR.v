(** * The exact-real instance of [Scalar]. *)
From Coq Require Import Reals QArith Qreals Bool Lra.
From Verif Require Import Scalar.
Local Open Scope R_scope.

Definition Rleb (x y : R) : bool := if Rle_dec x y then true else false.
Definition Rltb (x y : R) : bool := if Rlt_dec x y then true else false.
Definition Reqb (x y : R) : bool := if Req_EM_T x y then true else false.

(** f64::atan2 over the reals: the angle in (-pi, pi] of the point (x, y);
    atan2(0,0) = 0. *)
Definition Ratan2 (y x : R) : R :=
  if Rlt_dec 0 x then atan (y / x)
  else if Rlt_dec x 0 then
    (if Rle_dec 0 y then atan (y / x) + PI else atan (y / x) - PI)
  else if Rlt_dec 0 y then PI / 2
  else if Rlt_dec y 0 then - (PI / 2)
  else 0.

(* Division by zero is totalised by Coq's reals ([x / 0 = x * / 0], an unspecified
   number); theorems over R in which a divisor occurs guard against zero. *)
Global Instance RScalar : Scalar R := {
  szero := 0; sone := 1;
  sadd := Rplus; ssub := Rminus; smul := Rmult; sdiv := Rdiv; sneg := Ropp;
  sle := Rleb; slt := Rltb; seqb := Reqb;
  ssin := sin; scos := cos; satan2 := Ratan2; ssqrt := sqrt; sabs := Rabs;
  sofQ := Q2R;
}.

Lemma Rleb_spec x y : Rleb x y = true <-> x <= y.
Proof. unfold Rleb; destruct (Rle_dec x y); split; intros; congruence || auto. Qed.
Lemma Rltb_spec x y : Rltb x y = true <-> x < y.
Proof. unfold Rltb; destruct (Rlt_dec x y); split; intros; congruence || auto. Qed.
Lemma Reqb_spec x y : Reqb x y = true <-> x = y.
Proof. unfold Reqb; destruct (Req_EM_T x y); split; intros; congruence || auto. Qed.

Lemma R_snum (x : R) : snum x.
Proof. unfold snum; simpl. apply Rleb_spec. lra. Qed.

Global Instance R_OrdLaws : OrdLaws R.
Proof.
  constructor; intros; try (split; apply R_snum); try apply R_snum.
  simpl. unfold Rltb, Rleb. destruct (Rlt_dec x y), (Rle_dec y x); simpl; auto; lra.
Qed.
