(** * NaN and infinities on the way through forward kinematics *)
From Coq Require Import String ZArith Lia Floats.SpecFloat.
From stdpp Require Import gmap.
From Verif Require Import Scalar ScalarF Geometry Joint Link Prog NodeM ChainM FuncsM IkM SpecFK SpecIk SpecNan.

Section Nan.
  Variables (prec emax : Z) (L : libm).
  Local Instance FN : Scalar spec_float := FScalar prec emax L.
  Local Notation F := (FScalar prec emax L).

  Lemma wild_add x y : wild x \/ wild y -> wild (SFadd prec emax x y).
  Proof. intros [H|H]; destruct x as [| | |], y as [| | |]; try contradiction; cbn; try exact I; destruct s, s0; exact I. Qed.
  Lemma wild_sub x y : wild x \/ wild y -> wild (SFsub prec emax x y).
  Proof. intros [H|H]; destruct x as [| | |], y as [| | |]; try contradiction; cbn; try exact I; destruct s, s0; exact I. Qed.
  Lemma wild_mul x y : wild x \/ wild y -> wild (SFmul prec emax x y).
  Proof. intros [H|H]; destruct x as [| | |], y as [| | |]; try contradiction; exact I. Qed.
  Lemma wild_div x y : wild x -> wild (SFdiv prec emax x y).
  Proof. intros H; destruct x as [| | |], y as [| | |]; try contradiction; exact I. Qed.
  Lemma wild_sqrt x : wild x -> SFsqrt prec emax x = S754_nan \/ SFsqrt prec emax x = S754_infinity false.
  Proof. destruct x as [|[]| |]; intros H; try contradiction; cbn; auto. Qed.
  Lemma nan_wild x : x = S754_nan -> wild x.
  Proof. intros ->. exact I. Qed.

  Definition wild_quat (q : quat spec_float) : Prop := wild (qi q) /\ wild (qj q) /\ wild (qk q) /\ wild (qw q).
  Local Ltac w := first [assumption | apply wild_add; first [left; w|right; w] | apply wild_sub; first [left; w|right; w] | apply wild_mul; first [left; w|right; w]].
  Lemma wild_qmul_r a b : wild_quat b -> wild_quat (@qmul _ F a b).
  Proof. intros (H1 & H2 & H3 & H4). split; [|split; [|split]]; cbn; w. Qed.
  Lemma wild_qmul_l a b : wild_quat a -> wild_quat (@qmul _ F a b).
  Proof. intros (H1 & H2 & H3 & H4). split; [|split; [|split]]; cbn; w. Qed.
  Lemma wild_qrot_v q v : wild_vec v -> wild_vec (@qrot _ F q v).
  Proof. intros (H1 & H2 & H3). split; [|split]; cbn; apply wild_add; right; assumption. Qed.
  Lemma wild_qrot_q q v : wild_quat q -> wild_vec (@qrot _ F q v).
  Proof. intros (H1 & H2 & H3 & H4). split; [|split]; cbn; apply wild_add; left; apply wild_add; left; apply wild_mul; right; assumption. Qed.
  Lemma wild_vadd_l a b : wild_vec a -> wild_vec (@vadd _ F a b).
  Proof. intros (H1 & H2 & H3). split; [|split]; cbn; w. Qed.
  Lemma wild_vadd_r a b : wild_vec b -> wild_vec (@vadd _ F a b).
  Proof. intros (H1 & H2 & H3). split; [|split]; cbn; w. Qed.

  (** a wild angle makes the rotation wild *)
  Lemma wild_axis_angle a p : nan_outside L -> wild p -> wild_quat (@qaxis_angle _ F a p).
  Proof.
    intros HL Hp. destruct (HL (SFdiv prec emax p (@stwo _ F)) (wild_div _ _ Hp)) as [Hs Hc].
    unfold qaxis_angle. cbn [ssin scos sdiv FScalar]. rewrite Hs, Hc. split; [|split; [|split]]; cbn; try exact I; apply wild_mul; right; exact I.
  Qed.
  Definition unseen (j : joint spec_float) : Prop := match j_type j with Linear _ => False | _ => True end.
  Lemma wild_local j : nan_outside L -> wild (j_position j) ->
    match j_type j with
    | Fixed => True
    | Rotational _ => wild_quat (rt (@local_transform _ F j))
    | Linear _ => wild_vec (tr (@local_transform _ F j))
    end.
  Proof.
    intros HL Hp. unfold local_transform. destruct (j_type j) as [|a|a]; cbn [joint_transform]; [exact I| |]; cbn [iso_mul tr rt].
    - apply wild_qmul_r, wild_axis_angle; assumption.
    - apply wild_vadd_r, wild_qrot_v. split; [|split]; cbn; apply wild_mul; right; exact Hp.
  Qed.
  Lemma wild_tr_product ts : forall acc, wild_vec (tr acc) -> wild_vec (tr (@product _ F acc ts)).
  Proof. induction ts as [|x ts IH]; intros acc H; [exact H|]. cbn [product foldl]. apply IH. cbn [iso_mul tr]. apply wild_vadd_l, H. Qed.
  Lemma wild_product js1 j js2 acc : nan_outside L -> wild (j_position j) ->
    match j_type j with Fixed => False | Rotational _ => js2 <> [] | Linear _ => True end ->
    wild_vec (tr (@product _ F acc (map (@local_transform _ F) (js1 ++ j :: js2)%list))).
  Proof.
    intros HL Hp Ht. rewrite map_app. unfold product. rewrite foldl_app. cbn [map foldl]. set (b := foldl _ acc _). clearbody b.
    pose proof (wild_local j HL Hp) as Hw. destruct (j_type j) as [|a|a]; [contradiction| |].
    - destruct js2 as [|k js2]; [congruence|]. cbn [map foldl]. apply (wild_tr_product (map local_transform js2)). cbn [iso_mul tr]. apply wild_vadd_r, wild_qrot_q.
      cbn [rt]. apply wild_qmul_r, Hw.
    - apply (wild_tr_product (map local_transform js2)). cbn [iso_mul tr]. apply wild_vadd_r, wild_qrot_v, Hw.
  Qed.

  (** a wild coordinate is not within any tolerance *)
  Lemma wild_norm v x : wild (vx v) \/ wild (vy v) \/ wild (vz v) -> @slt _ F (@vnorm _ F v) x = false.
  Proof.
    intros H. assert (Hd : wild (@vdot _ F v v)) by (cbn; destruct H as [H|[H|H]]; w).
    unfold vnorm. cbn [ssqrt slt FScalar]. destruct (wild_sqrt _ Hd) as [-> | ->]; unfold SFltb; destruct x as [|[]| |]; reflexivity.
  Qed.
  (** but a NaN in a rotation counts as no rotation *)
  Lemma nan_add x y : x = S754_nan \/ y = S754_nan -> SFadd prec emax x y = S754_nan.
  Proof. intros [-> | ->]; [reflexivity|destruct x; reflexivity]. Qed.
  Lemma nan_sub x y : x = S754_nan \/ y = S754_nan -> SFsub prec emax x y = S754_nan.
  Proof. intros [-> | ->]; [reflexivity|destruct x; reflexivity]. Qed.
  Lemma nan_mul x y : x = S754_nan \/ y = S754_nan -> SFmul prec emax x y = S754_nan.
  Proof. intros [-> | ->]; [reflexivity|destruct x; reflexivity]. Qed.
  Local Ltac n := first [assumption | apply nan_add; first [left; n|right; n] | apply nan_sub; first [left; n|right; n] | apply nan_mul; first [left; n|right; n]].
  Lemma nan_opp x : x = S754_nan -> SFopp x = S754_nan.
  Proof. intros ->. reflexivity. Qed.
  Lemma nan_rotation a b : some_nan a \/ some_nan b -> @qscaled_axis _ F (@qmul _ F a (@qconj _ F b)) = @v0 _ F.
  Proof.
    intros H. set (q := qmul a (qconj b)).
    assert (Hq : qi q = S754_nan /\ qj q = S754_nan /\ qk q = S754_nan).
    { unfold q. cbn. destruct H as [[H|[H|[H|H]]]|[H|[H|[H|H]]]]; pose proof (nan_opp _ H); (split; [|split]); n. }
    clearbody q. unfold qscaled_axis, qaxis. set (v := if sge _ _ then _ else _).
    assert (Hv : vx v = S754_nan) by (unfold v; destruct (sge _ _); cbn; destruct Hq as (-> & _); reflexivity).
    assert (En : @vnorm _ F v = S754_nan).
    { unfold vnorm. cbn [ssqrt FScalar]. replace (vdot v v) with S754_nan; [reflexivity|]. symmetry. cbn. n. }
    rewrite En. reflexivity.
  Qed.
End Nan.
