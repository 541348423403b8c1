(** * Specification vocabulary for panics and poisoned nodes *)
From Coq Require Import String.
From stdpp Require Import gmap.
From Verif Require Import Scalar Geometry Joint Link Prog NodeM ChainM FuncsM IkM SpecChain Api.

Section SpecPoison.
  Context {T : Type} `{Sc : Scalar T}.

  (** the chains a call is given, and the ones it gives back *)
  Definition chains_in {R} (k : api T R) : list chain :=
    match k with
    | KChainSetOrigin c _ | KChainOrigin c | KIterJoints c | KIterLinks c | KFind c _ | KPositions c
    | KSetPositions c _ | KSetPositionsClamped c _ | KSetPositionsUnchecked c _ | KUpdateTransforms c
    | KUpdateVelocities c | KUpdateLinks c | KClone _ c | KChainFmt _ c | KTryNew _ c | KEndTransform c
    | KJacobian c | KCenterOfMass c | KSolve _ _ _ c _ | KSolveWith _ _ _ c _ _ => [c]
    | _ => []
    end.
  Definition chains_out {R} (k : api T R) : R -> list chain :=
    match k in api _ R return R -> list chain with
    | KFromNodes _ | KFromRoot _ _ | KFromEnd _ _ | KFromEndToRoot _ _ _ | KClone _ _ => fun c => [c]
    | KTryNew _ _ => fun o => match o with Some c => [c] | None => [] end
    | _ => fun _ => []
    end.
  (** [cl] does not forge chains (their fields are private, src/chain.rs:85-89):
      it uses those in [C] and those it was given by earlier calls *)
  Fixpoint real_chains {A} (C : chain -> Prop) (cl : client T A) : Prop :=
    match cl with
    | Finish _ => True
    | Call k next =>
        (forall c, c ∈ chains_in k -> C c) /\
        forall r, real_chains (fun c => C c \/ c ∈ chains_out k r) (next r)
    end.

  (** whoever has a mimic parent has a Mimic (set_mimic_parent sets both) *)
  Definition mimic_both (h : gmap nat (node T)) : Prop :=
    forall a n, h !! a = Some n -> is_Some (n_mimic_parent n) -> is_Some (n_mimic n).
End SpecPoison.
