(** * What the scalars denote: extended real numbers, or nothing for NaN.
    Used to state the range properties for IEEE numbers without mentioning
    comparison functions. *)
From Coq Require Import Reals ZArith Floats.SpecFloat.
From Flocq Require Import Core.

Inductive ext := NInf | Fin (r : R) | PInf.

Definition ext_le (x y : ext) : Prop :=
  match x, y with
  | NInf, _ => True
  | _, PInf => True
  | Fin a, Fin b => (a <= b)%R
  | _, _ => False
  end.

(** the value of an IEEE datum; [None] for NaN; both zeros denote 0 *)
Definition sf_value (x : spec_float) : option ext :=
  match x with
  | S754_zero _ => Some (Fin 0)
  | S754_infinity true => Some NInf
  | S754_infinity false => Some PInf
  | S754_nan => None
  | S754_finite s m e => Some (Fin (IZR (cond_Zopp s (Zpos m)) * bpow radix2 e))
  end.

(** a <= b, false if either is not a number *)
Definition val_le (a b : option ext) : Prop :=
  match a, b with Some x, Some y => ext_le x y | _, _ => False end.
