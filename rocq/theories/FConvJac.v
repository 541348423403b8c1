(** * The float Jacobian of an arm against the columns of an ideal arm *)
From Coq Require Import String Reals ZArith Lra Lia Psatz Floats.SpecFloat.
From Flocq Require Import Core IEEE754.BinarySingleNaN.
From stdpp Require Import gmap.
From Verif Require Import Scalar ScalarR ScalarF Geometry Joint Link Prog NodeM ChainM FuncsM RunLemmas SpecValues SpecFloatErr FloatErr
  SpecNode SpecGraph SpecChain GraphProofs SpecFK FKProofs JacProofs SpecGeom RGeom GeomProofs JacReal SpecReach ReachProofs ChainProofs
  SpecAcc AccProofs AccProofs2 SpecJacAcc AccJac VelocityProofs LinArm TrajProofs SpecStep StepProofs SpecLuAcc PropLuAcc.
Local Open Scope R_scope.

Section Cols.
  Context (prec emax : Z) (Hp : Prec_gt_0 prec) (Hm : Prec_lt_emax prec emax) (L : libm) (Hprec : (11 <= prec)%Z) (alpha delta : R)
    (Ha : 0 <= alpha) (Hd : 0 <= delta) (HL : libm_within prec emax delta L).
  Notation FS := (FScalar prec emax L).
  Definition column_near (js : list (joint R)) (x : list spec_float) (w : list R) : Prop :=
    exists v o (v0 o0 : vec3 R), column_val prec emax x v o /\ w = [vx v0; vy v0; vz v0; vx o0; vy o0; vz o0] /\
      rates_close prec emax alpha delta js v o v0 o0.
  Lemma float_columns (h : gmap nat (node spec_float)) e l xs js : path_up h e l -> joints_of h (rev l) xs ->
    Forall2 (stands_for prec emax alpha) xs js -> fits_jacobian prec emax alpha delta js ->
    forall l2 xs2 js2 l1 xs1 js1, rev l = l1 ++ l2 -> xs = xs1 ++ xs2 -> js = js1 ++ js2 -> length xs1 = length js1 ->
    joints_of h l1 xs1 -> joints_of h l2 xs2 ->
    forall cols, Forall2 (@col_at _ FS h (rev l) (tr (@product _ FS (@iso1 _ FS) (map (@local_transform _ FS) xs)))) (List.filter (node_movable h) l2) cols ->
    Forall2 (column_near js) cols (colsof (tr (end_at iso1 js)) (product iso1 (map local_transform js1)) js2).
  Proof.
    intros Hpath Hxs Hst Hf l2. induction l2 as [|a l2 IH]; intros xs2 js2 l1 xs1 js1 El Exs Ejs Hlen H1 H2 cols Hcols.
    - inversion H2; subst xs2. rewrite app_nil_r in Exs. subst xs1.
      assert (js2 = []) as -> by (apply length_zero_iff_nil; apply Forall2_length in Hst; rewrite Ejs, app_length in Hst; lia).
      inversion Hcols. constructor.
    - inversion H2 as [|? j ? xs2' (n & Hn & ->) H2' E1 E2]; subst xs2. clear H2.
      destruct js2 as [|j js2]; [apply Forall2_length in Hst; rewrite Exs, Ejs, !app_length in Hst; cbn in Hst; lia|].
      assert (Hst' := Hst). rewrite Exs, Ejs in Hst'. apply Forall2_app_inv in Hst' as [Hst1 Hst2]; [|exact Hlen].
      inversion Hst2 as [|? ? ? ? Hj Hst2' E5 E6]; subst xs js.
      assert (Hain : a ∈ rev l) by (rewrite El; set_solver).
      assert (Hn1 : joints_of h (l1 ++ [a]) (xs1 ++ [n_joint n])) by (apply Forall2_app; [exact H1|repeat constructor; eauto]).
      assert (Hprod : product iso1 (map local_transform (js1 ++ [j])) = iso_mul (product iso1 (map local_transform js1)) (local_transform j)).
      { rewrite map_app. cbn [map]. rewrite product_app. reflexivity. }
      specialize (IH xs2' js2 (l1 ++ [a]) (xs1 ++ [n_joint n]) (js1 ++ [j])).
      rewrite <- !app_assoc in IH. specialize (IH El eq_refl eq_refl ltac:(rewrite !app_length; cbn; lia) Hn1 H2'). rewrite Hprod in IH.
      cbn [List.filter] in Hcols. unfold node_movable in Hcols at 1. rewrite Hn in Hcols. cbn [colsof].
      assert (Hone : forall col w, @col_at _ FS h (rev l) (tr (@product _ FS (@iso1 _ FS) (map (@local_transform _ FS) (xs1 ++ n_joint n :: xs2')))) a col ->
        jcol (tr (end_at iso1 (js1 ++ j :: js2))) (iso_mul (product iso1 (map local_transform js1)) (local_transform j)) (j_type j) = Some w ->
        column_near (js1 ++ j :: js2) col w).
      { intros col w (n' & T & Hn' & Hb & Hjf) Hw. assert (n' = n) as -> by congruence.
        assert (HwT : @world _ FS h a T) by (eapply based_world; [eapply from_end_parents_first; eauto|exact Hain|exact Hb]).
        assert (ET : T = @product _ FS (@iso1 _ FS) (map (@local_transform _ FS) (xs1 ++ [n_joint n]))).
        { rewrite map_app, product_app.
          refine (@partial_product _ FS h e l (map (@local_transform _ FS) xs1) (@local_transform _ FS (n_joint n)) (map (@local_transform _ FS) xs2') l1 a l2 T Hpath El _ _ _ HwT);
            [apply joints_local, H1|exists n; auto|apply joints_local, H2']. }
        rewrite <- Hprod in Hw.
        assert (E9 : js1 ++ j :: js2 = (js1 ++ [j]) ++ js2) by (rewrite <- app_assoc; reflexivity).
        eapply (column_close prec emax Hp Hm L Hprec alpha delta Ha Hd (js1 ++ j :: js2) T (product iso1 (map local_transform (js1 ++ [j]))) _ (end_at iso1 (js1 ++ j :: js2)) (j_type j) (j_type (n_joint n)));
          [|exact Hf| | | |exact Hjf|exact Hw].
        - destruct js1; discriminate.
        - rewrite E9, ET. apply prefix_approx; try assumption; [apply Forall2_app; [exact Hst1|constructor; [exact Hj|constructor]]|]. rewrite <- E9. exact Hf.
        - pose proof (prefix_approx prec emax Hp Hm L Hprec alpha delta Ha Hd HL (xs1 ++ n_joint n :: xs2') (js1 ++ j :: js2) [] Hst) as Hpa.
          rewrite app_nil_r in Hpa. apply Hpa, Hf.
        - apply Hj. }
      pose proof Hj as (Hty & _).
      destruct (j_type (n_joint n)) eqn:Ety, (j_type j) eqn:Etj; try contradiction; [apply IH; exact Hcols| |].
      all: inversion Hcols as [|? col ? cols' Hcol Hcols' E3 E4]; subst cols; destruct (jcol _ _ _) as [w|] eqn:Ew; [|discriminate];
        constructor; [apply Hone; [exact Hcol|reflexivity]|apply IH; exact Hcols'].
  Qed.
  Lemma float_jacobian t (h : gmap nat (node spec_float)) nx arm e l xs js : path_up h e l -> chain_of h (rev l) arm -> joints_of h (rev l) xs ->
    Forall2 (stands_for prec emax alpha) xs js -> fits_jacobian prec emax alpha delta js ->
    exists cf h', run t (@jacobian _ FS arm) (quiet h nx) = Done (Mat 6 cf) (quiet h' nx) /\
      Forall2 (column_near js) cf (colsof (tr (end_at iso1 js)) iso1 js).
  Proof.
    intros Hpath Hch Hxs Hst Hf. pose proof Hch as (En & Emv & _).
    assert (Hts : Forall2 (@local_at _ FS h) (c_nodes arm) (map (@local_transform _ FS) xs)) by (rewrite En; apply joints_local; exact Hxs).
    destruct (@run_jacobian _ FS t h nx arm (map (@local_transform _ FS) xs)) as (cols & h' & Hr & _ & Hcols); [|rewrite En; exact Hch|exact Hts|].
    { apply parents_first_order; [rewrite En; apply all_live_rev; eapply path_all_live; eauto|]. rewrite En. eapply from_end_parents_first; eauto. }
    exists cols, h'. split; [exact Hr|]. rewrite En, Emv in Hcols.
    exact (float_columns h e l xs js Hpath Hxs Hst Hf (rev l) xs js [] [] [] eq_refl eq_refl eq_refl eq_refl (proj2 (Forall2_nil _) I) Hxs cols Hcols).
  Qed.
  (** values of the entries, and their distance to the ideal ones *)
  Definition jac_eps (js : list (joint R)) : R := (growth prec alpha delta ^ (16 * S (length js)) - 1) * (2 * reach emax js + 1).
  Lemma columns_near js cf cr : Forall2 (column_near js) cf cr ->
    exists cv, Forall2 (Forall2 (val prec emax)) cf cv /\ near_cols (jac_eps js) cv cr /\ Forall (fun k => length k = 6%nat) cv /\ Forall (fun k => length k = 6%nat) cr.
  Proof.
    pose proof (growth_one prec alpha delta Ha Hd) as G1.
    assert (R0 : 0 <= reach emax js) by (rewrite <- (slack_reach emax js); apply (slack_pos prec emax Hm Hprec)).
    pose proof (pow_ge_1 (growth prec alpha delta) (16 * S (length js)) G1) as P16.
    assert (P8 : growth prec alpha delta ^ (8 * S (length js)) - 1 <= jac_eps js).
    { pose proof (pow_mono (growth prec alpha delta) (8 * S (length js)) (16 * S (length js)) G1 ltac:(lia)) as H8. unfold jac_eps.
      apply Rle_trans with ((growth prec alpha delta ^ (16 * S (length js)) - 1) * 1); [lra|]. apply Rmult_le_compat_l; lra. }
    induction 1 as [|x y cf cr Hxy H IH]; [exists []; repeat split; constructor|].
    destruct IH as (cv & V1 & V2 & V3 & V4). destruct Hxy as (v & o & v0 & o0 & Hv & -> & [D1 D2]). fold (jac_eps js) in D1.
    exists ([vx v; vy v; vz v; vx o; vy o; vz o] :: cv).
    split; [constructor; assumption|]. split; [|split; constructor; auto]. constructor; [|exact V2].
    pose proof (comp_len (minus v v0)) as (C1 & C2 & C3). pose proof (comp_len (minus o o0)) as (C4 & C5 & C6). unfold dist in D1, D2. cbn [minus vx vy vz] in *.
    constructor; [|constructor; [|constructor; [|constructor; [|constructor; [|constructor; [|constructor]]]]]]; lra.
  Qed.
End Cols.
