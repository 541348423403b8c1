(** * Running the model: a libm, a linear algebra, assertions

    Only for [Replay.v], which runs the crate's own tests on the model; no
    theorem depends on this file.  sin, cos and atan are computed by their power
    series, LU is the model of nalgebra's in LuM.v, and the least norm solution is
    computed as J^T (J J^T)^-1 b. *)
From Coq Require Import String ZArith QArith List Bool Floats.SpecFloat.
From Verif Require Import Scalar ScalarF Geometry Joint Link Prog NodeM ChainM FuncsM IkM LuM BuilderM.
From stdpp Require Import gmap.
Import ListNotations.

Section Libm.
  Context (prec emax : Z).
  Let add := SFadd prec emax. Let sub := SFsub prec emax.
  Let mul := SFmul prec emax. Let div := SFdiv prec emax.
  Let ofZ := SFofZ prec emax.
  Let one := ofZ 1.
  (** sum over k >= k0 of (-1)^k x^(2k+r) / (2k+r)!, given the term of k0 *)
  Fixpoint trig (n : nat) (k : Z) (term x2 acc : spec_float) : spec_float :=
    match n with
    | 0 => acc
    | S n =>
        let term' := SFopp (div (mul term x2) (ofZ ((k + 1) * (k + 2)))) in
        trig n (k + 2) term' x2 (add acc term')
    end.
  Definition sin_ (x : spec_float) := trig 14 1 x (mul x x) x.
  Definition cos_ (x : spec_float) := trig 14 0 one (mul x x) one.
  (** atan t = 2 atan (t / (1 + sqrt (1 + t^2))), then the series *)
  Fixpoint atan_series (n : nat) (k : Z) (p x2 acc : spec_float) : spec_float :=
    match n with
    | 0 => acc
    | S n =>
        let p' := SFopp (mul p x2) in
        atan_series n (k + 2) p' x2 (add acc (div p' (ofZ (k + 2))))
    end.
  Definition halve (t : spec_float) := div t (add one (SFsqrt prec emax (add one (mul t t)))).
  Definition atan_ (t : spec_float) :=
    let u := halve (halve t) in mul (ofZ 4) (atan_series 14 1 u (mul u u) u).
  (** for y, x >= 0, the only arguments the crate passes *)
  Definition atan2_ (y x : spec_float) :=
    if SFleb y x then (if SFeqb x (ofZ 0) then ofZ 0 else atan_ (div y x))
    else sub (mul (ofZ 2) (atan_ one)) (atan_ (div x y)).
  Definition LM : libm := Build_libm sin_ cos_ atan2_.
End Libm.
Definition D64 : Scalar spec_float := F64 (LM 53 1024).
Definition D32 : Scalar spec_float := F32 (LM 24 128).

Section Solve.
  Context `{Sc : Scalar spec_float}.
  Definition rows_of (m : mat spec_float) : list (list spec_float) :=
    map (row m) (seq 0 (m_rows m)).
  Definition mat_t (m : mat spec_float) : mat spec_float := Mat (length (m_cols m)) (rows_of m).
  Definition least_norm (m : mat spec_float) (b : list spec_float) : option (list spec_float) :=
    mat_vec (mat_t m) <$> na_lu_solve (mat_mul m (mat_t m)) b.
  Definition right_inverse (m : mat spec_float) : option (mat spec_float) :=
    cols ← mapM (M:=option) (least_norm m) (m_cols (ident (m_rows m)));
    Some (Mat (length (m_cols m)) cols).
  Definition la : linalg spec_float := Linalg na_lu_solve least_norm right_inverse.

  (** assertions *)
  Definition ok {A} (r : result spec_float A) : prog spec_float A :=
    match r with Ok x => Ret x | Err _ => Panic "unwrap of an Err" end.
  Definition some {A} (o : option A) : prog spec_float A :=
    expect o "unwrap of a None".
  Definition check (b : bool) : prog spec_float unit := assert_ b "assertion failed".
  (** assert!((x - y).abs() < e) *)
  Definition near (x y e : spec_float) : bool := slt (sabs (ssub x y)) e.
  Definition eqs (a b : list spec_float) : bool :=
    bool_decide (length a = length b) && forallb (fun p => seqb (fst p) (snd p)) (zip a b).
  Definition names (l : list nat) : prog spec_float (list string) :=
    Prog.mapM (fun a => read a (fun n => j_name (n_joint n))) l.
  (** a decimal literal *)
  Definition d (p : Z) (q : positive) : spec_float := sofQ (Qmake p q).
  Definition at_ (x y z : spec_float) : iso spec_float := Iso (V3 x y z) q1.
End Solve.
Definition passes {A} (p : prog spec_float A) : bool :=
  match run 0 p (quiet ∅ 0) with Done _ _ => true | _ => false end.
