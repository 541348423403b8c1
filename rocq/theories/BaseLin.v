(** * Turning the rows of a linear system *)
From Coq Require Import String Reals Lra Lia.
From stdpp Require Import gmap.
From Verif Require Import Scalar ScalarR Geometry Joint Link Prog NodeM ChainM FuncsM IkM SpecNode SpecIk SpecStep SvdM SpecLin SpecGeom RGeom
  LinAlgR LuM LuProofs PropLu SvdProofs SvdExist SvdUniq SvdDet PropSvd2 PropSvd.
Local Open Scope R_scope.

(** three rows at a time *)
Fixpoint turn_rows (q : quat R) (l : list R) : list R :=
  match l with
  | x :: y :: z :: l => let v := turn q (V3 x y z) in vx v :: vy v :: vz v :: turn_rows q l
  | l => l
  end.
Definition turned (q : quat R) (J : mat R) : mat R := Mat (m_rows J) (map (turn_rows q) (m_cols J)).
(** lists of a length divisible by three *)
Inductive triples : list R -> Prop :=
| triples_nil : triples []
| triples_cons x y z l : triples l -> triples (x :: y :: z :: l).
Lemma triples_of k : forall l : list R, length l = (3 * k)%nat -> triples l.
Proof.
  induction k as [|k IH]; intros l H; [destruct l; [constructor|discriminate]|].
  destruct l as [|x [|y [|z l]]]; cbn in H; try lia. constructor. apply IH. lia.
Qed.
Lemma turn_rows_length q l : triples l -> length (turn_rows q l) = length l.
Proof. induction 1 as [|x y z l H IH]; cbn; congruence. Qed.
Lemma turn_rows_triples q l : triples l -> triples (turn_rows q l).
Proof. induction 1; cbn; constructor; assumption. Qed.
Lemma turn_rows_dot q : unit_quat q -> forall a, triples a -> forall b, length b = length a -> dot (turn_rows q a) (turn_rows q b) = dot a b.
Proof.
  intros Hq a Ha. induction Ha as [|x y z l H IH]; intros b E; [destruct b; [reflexivity|discriminate]|].
  destruct b as [|x' [|y' [|z' b]]]; cbn in E; try lia. cbn [turn_rows]. cbv zeta.
  assert (E' : length b = length l) by lia. specialize (IH b E').
  pose proof (inner_turn q (V3 x y z) (V3 x' y' z') Hq) as Hi. unfold inner in Hi. cbn [vx vy vz] in Hi.
  set (v := turn q (V3 x y z)) in *. set (v' := turn q (V3 x' y' z')) in *. change (dot (x :: y :: z :: l) (x' :: y' :: z' :: b)) with (x * x' + (y * y' + (z * z' + dot l b))).
  change (dot (vx v :: vy v :: vz v :: turn_rows q l) (vx v' :: vy v' :: vz v' :: turn_rows q b)) with (vx v * vx v' + (vy v * vy v' + (vz v * vz v' + dot (turn_rows q l) (turn_rows q b)))).
  rewrite IH. lra.
Qed.
Lemma turn_rows_back q : unit_quat q -> forall l, triples l -> turn_rows (qconj q) (turn_rows q l) = l.
Proof.
  intros Hq l H. induction H as [|x y z l H IH]; [reflexivity|]. cbn [turn_rows]. cbv zeta. set (v := turn q (V3 x y z)).
  assert (E : V3 (vx v) (vy v) (vz v) = v) by (destruct v; reflexivity). rewrite E. unfold v. rewrite turn_conj by exact Hq. cbn. rewrite IH. reflexivity.
Qed.
Lemma turn_rows_inj q a b : unit_quat q -> triples a -> triples b -> turn_rows q a = turn_rows q b -> a = b.
Proof. intros Hq Ha Hb E. rewrite <- (turn_rows_back q Hq a Ha), <- (turn_rows_back q Hq b Hb), E. reflexivity. Qed.
Lemma turn_rows_lin q y : forall c, triples c -> forall s, length s = length c ->
  turn_rows q (zip_with (fun a s => a * y + s) c s) = zip_with (fun a s => a * y + s) (turn_rows q c) (turn_rows q s).
Proof.
  intros c H. induction H as [|a b d l H IH]; intros s E; [reflexivity|].
  destruct s as [|x' [|y' [|z' s]]]; cbn in E; try lia. cbn [zip_with turn_rows]. cbv zeta. rewrite IH by lia.
  apply (f_equal2 cons); [unfold turn; cbn; ring|]. apply (f_equal2 cons); [unfold turn; cbn; ring|]. apply (f_equal2 cons); [unfold turn; cbn; ring|reflexivity].
Qed.
Lemma turn_rows_zero q k : turn_rows q (repeat 0 (3 * k)) = repeat 0 (3 * k).
Proof.
  induction k as [|k IH]; [reflexivity|]. replace (3 * S k)%nat with (S (S (S (3 * k)))) by lia. cbn [repeat turn_rows]. cbv zeta. rewrite IH.
  apply (f_equal2 cons); [unfold turn; cbn; ring|]. apply (f_equal2 cons); [unfold turn; cbn; ring|]. apply (f_equal2 cons); [unfold turn; cbn; ring|reflexivity].
Qed.
Lemma combine_turned q k cols : Forall (fun c => length c = (3 * k)%nat) cols -> forall x,
  combine (3 * k) (map (turn_rows q) cols) x = turn_rows q (combine (3 * k) cols x).
Proof.
  induction 1 as [|c cols Hc H IH]; intros [|y x]; cbn [map combine]; try (symmetry; apply turn_rows_zero).
  rewrite IH. symmetry. apply turn_rows_lin; [eapply triples_of; exact Hc|]. rewrite combine_length by exact H. congruence.
Qed.
Section Turned.
  Variables (q : quat R) (J : mat R) (k : nat).
  Hypothesis (Hq : unit_quat q) (HJ : tidy J) (Hk : m_rows J = (3 * k)%nat).
  Lemma cols_triples c : c ∈ m_cols J -> triples c.
  Proof. intros Hc. unfold tidy in HJ. rewrite Forall_forall in HJ. apply HJ in Hc. cbn in Hc. eapply triples_of. rewrite Hc, Hk. reflexivity. Qed.
  Lemma turned_tidy : tidy (turned q J).
  Proof.
    unfold tidy, turned. cbn [m_rows m_cols]. apply Forall_forall. intros c Hc. apply elem_of_list_fmap in Hc as (c0 & -> & Hc0).
    rewrite turn_rows_length by (apply cols_triples; exact Hc0). unfold tidy in HJ. rewrite Forall_forall in HJ. apply HJ. exact Hc0.
  Qed.
  Lemma act_turned x : act (turned q J) x = turn_rows q (act J x).
  Proof. unfold act, turned. cbn [m_rows m_cols]. rewrite Hk. apply combine_turned. rewrite <- Hk. exact HJ. Qed.
  Lemma act_triples x : triples (act J x).
  Proof. eapply triples_of. unfold act. rewrite combine_length by exact HJ. exact Hk. Qed.
  Lemma solves_turned x b : length b = m_rows J -> solves (turned q J) x (turn_rows q b) <-> solves J x b.
  Proof.
    intros Hb. unfold solves. change (combine (m_rows (turned q J)) (m_cols (turned q J)) x) with (act (turned q J) x). change (combine (m_rows J) (m_cols J) x) with (act J x).
    rewrite act_turned. unfold turned. cbn [m_cols]. rewrite map_length. split; intros [H1 H2]; (split; [exact H1|]); [|rewrite H2; reflexivity].
    eapply turn_rows_inj; [exact Hq|apply act_triples|eapply triples_of; rewrite Hb; exact Hk|exact H2].
  Qed.
  Lemma lu_turned b : length b = m_rows J -> na_lu_solve (turned q J) (turn_rows q b) = na_lu_solve J b.
  Proof.
    intros Hb. assert (Hbt : triples b) by (eapply triples_of; rewrite Hb; exact Hk).
    destruct (decide (length (m_cols J) = m_rows J)) as [Hsq|Hsq].
    - set (n := m_rows J). assert (HS : shaped J n n) by (split; [reflexivity|split; [exact Hsq|exact HJ]]).
      assert (HS' : shaped (turned q J) n n) by (split; [reflexivity|split; [unfold turned; cbn [m_cols]; rewrite map_length; exact Hsq|exact turned_tidy]]).
      assert (Hb' : length (turn_rows q b) = n) by (rewrite turn_rows_length by exact Hbt; exact Hb).
      destruct (na_lu_solve J b) as [x|] eqn:E.
      + destruct (C66_lu_exact J n b x HS Hb E) as (Hx & Hux & Hreg). apply (solves_turned x b Hb) in Hx.
        destruct (na_lu_solve (turned q J) (turn_rows q b)) as [x'|] eqn:E'.
        * destruct (C66_lu_exact _ n _ x' HS' Hb' E') as (Hx' & Hux' & _). f_equal. symmetry. apply Hux'. exact Hx.
        * exfalso. apply (C66_lu_singular _ n _ HS' Hb') in E'. apply E'. intros z Hz.
          assert (Ez : repeat 0 (m_rows (turned q J)) = turn_rows q (repeat 0 (m_rows J))) by (cbn [turned m_rows]; rewrite Hk, turn_rows_zero; reflexivity).
          assert (H0 : z = zeros (length (m_cols J))); [|unfold turned; cbn [m_cols]; rewrite map_length; exact H0].
          apply Hreg. apply (solves_turned z); [apply repeat_length|]. unfold zeros. rewrite <- Ez. exact Hz.
      + destruct (na_lu_solve (turned q J) (turn_rows q b)) as [x'|] eqn:E'; [|reflexivity].
        exfalso. apply (C66_lu_singular J n b HS Hb) in E. apply E. destruct (C66_lu_exact _ n _ x' HS' Hb' E') as (_ & _ & Hreg). intros z Hz.
        assert (Ez : repeat 0 (m_rows (turned q J)) = turn_rows q (repeat 0 (m_rows J))) by (cbn [turned m_rows]; rewrite Hk, turn_rows_zero; reflexivity).
        assert (H0 : z = zeros (length (m_cols (turned q J)))); [|unfold turned in H0; cbn [m_cols] in H0; rewrite map_length in H0; exact H0].
        apply Hreg. unfold zeros. rewrite Ez. apply solves_turned; [apply repeat_length|exact Hz].
    - unfold na_lu_solve. rewrite !decide_False; [reflexivity| |]; intros (H1 & _).
      + apply Hsq. exact H1. 
      + apply Hsq. unfold turned in H1. cbn [m_rows m_cols] in H1. rewrite map_length in H1. exact H1.
  Qed.
  Lemma svd_turned d : svd_of J d -> svd_of (turned q J) (Svd (map (turn_rows q) (left d)) (sing d) (right d)).
  Proof.
    intros (H1 & H2 & H3 & H4 & H5 & H6 & H7 & H8). unfold svd_of. cbn [left sing right].
    assert (Ht : forall u, u ∈ left d -> triples u) by (intros u Hu; rewrite Forall_forall in H3; eapply triples_of; rewrite (H3 u Hu); exact Hk).
    split; [rewrite map_length; exact H1|]. split; [exact H2|]. split.
    { apply Forall_forall. intros u Hu. apply elem_of_list_fmap in Hu as (u0 & -> & Hu0). rewrite turn_rows_length by (apply Ht; exact Hu0). rewrite Forall_forall in H3. apply H3. exact Hu0. }
    assert (Hn : length (m_cols (turned q J)) = length (m_cols J)) by (unfold turned; cbn [m_cols]; apply map_length).
    split; [rewrite Hn; exact H4|]. split.
    { intros i j a b Ha Hb. change (map (turn_rows q) (left d)) with (turn_rows q <$> left d) in Ha, Hb. rewrite list_lookup_fmap in Ha, Hb.
      destruct (left d !! i) as [a0|] eqn:Ea; [|discriminate]. destruct (left d !! j) as [b0|] eqn:Eb; [|discriminate]. injection Ha as <-. injection Hb as <-. rewrite turn_rows_dot; [apply (H5 i j a0 b0 Ea Eb)|exact Hq|apply Ht; eapply elem_of_list_lookup_2; exact Ea|].
      rewrite Forall_forall in H3. rewrite (H3 a0), (H3 b0) by (eapply elem_of_list_lookup_2; eassumption). reflexivity. }
    split; [exact H6|]. split; [exact H7|]. intros x Hx. rewrite Hn in Hx. rewrite act_turned, (H8 x Hx). cbn [turned m_rows]. rewrite Hk. symmetry. apply combine_turned.
    rewrite <- Hk. exact H3.
  Qed.
  Lemma coords_turned us b : Forall (fun u => length u = m_rows J) us -> length b = m_rows J -> coords (map (turn_rows q) us) (turn_rows q b) = coords us b.
  Proof.
    intros Hu Hb. induction Hu as [|u us Hu Hus IH]; [reflexivity|]. unfold coords in *. cbn [map]. rewrite IH. f_equal.
    apply turn_rows_dot; [exact Hq|eapply triples_of; rewrite Hu; exact Hk|congruence].
  Qed.
  Lemma answer_turned d eps b : svd_of J d -> length b = m_rows J ->
    answer (turned q J) (Svd (map (turn_rows q) (left d)) (sing d) (right d)) eps (turn_rows q b) = answer J d eps b.
  Proof.
    intros Hd Hb. unfold answer. cbn [left sing right]. rewrite coords_turned by (try exact Hb; apply Hd). unfold turned. cbn [m_cols]. rewrite map_length. reflexivity.
  Qed.
End Turned.

(** the linear algebra does not care how the rows are turned *)
Definition frame_free (la : linalg R) : Prop := forall q J k, unit_quat q -> tidy J -> m_rows J = (3 * k)%nat ->
  (forall b, length b = m_rows J -> lu_solve la (turned q J) (turn_rows q b) = lu_solve la J b /\ svd_solve la (turned q J) (turn_rows q b) = svd_solve la J b) /\
  match pinv la J, pinv la (turned q J) with
  | Some P, Some P' => m_rows P' = m_rows P /\ forall b, length b = m_rows J -> mat_vec P' (turn_rows q b) = mat_vec P b
  | None, None => True
  | _, _ => False
  end.
Lemma nalgebra_frame_free dec : decomposes dec -> frame_free (svd_linalg na_lu_solve dec).
Proof.
  intros Hdec q J k Hq HJ Hk. destruct eps_R as [_ He]. pose proof (turned_tidy q J k HJ Hk) as HJ'. pose proof (Hdec J HJ) as Hd. pose proof (Hdec _ HJ') as Hd'.
  pose proof (svd_turned q J k Hq HJ Hk _ Hd) as Hdt. set (dt := Svd _ _ _) in Hdt.
  split.
  - intros b Hb. split; [exact (lu_turned q J k Hq HJ Hk b Hb)|]. cbn [svd_linalg svd_solve].
    rewrite (solve_unique _ _ dt ik_eps (turn_rows q b) Hd' Hdt He), !solve_answer by assumption. f_equal. eapply answer_turned; eassumption.
  - cbn [svd_linalg pinv]. destruct (pinv_answer J _ ik_eps Hd He) as (P & -> & HP & Ha). destruct (pinv_answer _ _ ik_eps Hd' He) as (P' & -> & HP' & Ha').
    pose proof HP as (R1 & C1 & L1). pose proof HP' as (R2 & C2 & L2). unfold turned in R2, C2. cbn [m_rows m_cols] in R2, C2. rewrite map_length in R2.
    split; [congruence|]. intros b Hb. assert (Hbt : triples b) by (eapply triples_of; rewrite Hb; exact Hk).
    assert (HLb : length (turn_rows q b) = m_rows J) by (rewrite turn_rows_length by exact Hbt; exact Hb).
    rewrite !mat_vec_combine; [|try congruence; try (rewrite R1; exact L1) ..].
    all: try (rewrite R1; exact L1); try (rewrite R2; unfold turned in L2; cbn [m_cols] in L2; rewrite map_length in L2; exact L2); try congruence.
    change (act P' (turn_rows q b) = act P b). rewrite Ha, Ha' by assumption. rewrite (answer_unique _ _ dt ik_eps _ Hd' Hdt He) by exact HLb. eapply answer_turned; eassumption.
Qed.
