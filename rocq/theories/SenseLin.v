(** * Linear systems with turned columns *)
From Coq Require Import String Reals Lra Lia.
From stdpp Require Import gmap.
From Verif Require Import Scalar ScalarR Geometry Joint Link Prog NodeM ChainM FuncsM IkM LuM SvdM SpecGeom
  SpecStep SpecLin LinAlgR SvdProofs SvdUniq SvdDet SpecUnit UnitLin SpecSense BaseLin PropLu PropSvd PropSvd2.
Local Open Scope R_scope.

Definition all_signs (ss : list R) : Prop := Forall (fun s => s * s = 1) ss.
Lemma signs_ok fs : all_signs (signs fs).
Proof. unfold all_signs, signs. apply Forall_map, Forall_true. intros f. unfold sg. destruct (flipped f); lra. Qed.
Definition signed (ss : list R) (J : mat R) : mat R := Mat (m_rows J) (zip_with turned_column ss (m_cols J)).

Lemma zip_twice ss : all_signs ss -> forall x, length x = length ss -> zip_with Rmult ss (zip_with Rmult ss x) = x.
Proof.
  induction 1 as [|s ss Hs H IH]; intros [|y x] L; try discriminate; [reflexivity|]. cbn. rewrite IH by (cbn in L; lia). f_equal.
  replace (s * (s * y)) with (s * s * y) by ring. rewrite Hs. ring.
Qed.
Lemma dot_signed ss : all_signs ss -> forall x y, length x = length ss -> length y = length ss -> dot (zip_with Rmult ss x) (zip_with Rmult ss y) = dot x y.
Proof.
  induction 1 as [|s ss Hs H IH]; intros [|a x] [|b y] L1 L2; try discriminate; [reflexivity|]. cbn in *. rewrite IH by lia.
  replace (s * a * (s * b)) with (s * s * (a * b)) by ring. rewrite Hs. ring.
Qed.
Lemma dot_move ss x y : length x = length ss -> length y = length ss -> dot (zip_with Rmult ss x) y = dot x (zip_with Rmult ss y).
Proof.
  revert x y. induction ss as [|s ss IH]; intros [|a x] [|b y] L1 L2; try discriminate; [reflexivity|]. cbn in *. rewrite IH by lia. ring.
Qed.
Lemma combine_signed n ss : forall cols x, length cols = length ss -> length x = length ss ->
  combine n (zip_with turned_column ss cols) x = combine n cols (zip_with Rmult ss x).
Proof.
  induction ss as [|s ss IH]; intros [|c cols] [|y x] L1 L2; try discriminate; [reflexivity|]. cbn in L1, L2 |- *. rewrite IH by lia.
  generalize (combine n cols (zip_with Rmult ss x)) as S. unfold turned_column. clear. induction c as [|a c IH]; intros [|b S]; cbn; try reflexivity. f_equal; [ring|apply IH].
Qed.
Lemma combine_zip n ss : length ss = n -> forall vs w, Forall (fun v => length v = n) vs ->
  combine n (map (zip_with Rmult ss) vs) w = zip_with Rmult ss (combine n vs w).
Proof.
  intros Hn. induction vs as [|v vs IH]; intros [|y w] H; cbn; try (symmetry; apply zip_zeros; exact Hn).
  apply Forall_cons in H as [Hv H]. rewrite IH by exact H. pose proof (combine_length n vs w H) as Lc. revert Lc. generalize (combine n vs w) as S. clear -Hn Hv.
  revert v n Hn Hv. induction ss as [|s ss IH]; intros [|a v] n Hn Hv [|b S] HS; cbn in *; try reflexivity; try congruence. f_equal; [ring|]. apply (IH v (length ss)); congruence.
Qed.
Lemma signed_wf ss J : Forall (fun c => length c = m_rows J) (m_cols J) -> Forall (fun c => length c = m_rows (signed ss J)) (m_cols (signed ss J)).
Proof.
  unfold signed. cbn [m_rows m_cols]. intros H. revert ss. induction H as [|c cols Hc H IH]; intros [|s ss]; cbn; constructor; [|apply IH].
  unfold turned_column. rewrite map_length. exact Hc.
Qed.
Lemma signed_cols ss J : length ss = length (m_cols J) -> length (m_cols (signed ss J)) = length (m_cols J).
Proof. intros H. unfold signed. cbn [m_cols]. rewrite zip_with_length. lia. Qed.
Lemma lu_signed ss J n b : shaped J n n -> length b = n -> length ss = n -> all_signs ss ->
  na_lu_solve (signed ss J) b = zip_with Rmult ss <$> na_lu_solve J b.
Proof.
  intros HJ Hb Ls Hs. pose proof HJ as (J1 & J2 & J3).
  assert (Hnz : Forall (fun u => u <> 0) ss) by (eapply Forall_impl; [exact Hs|]; cbn; intros s E ->; lra).
  assert (Hones : Forall (fun r : R => r <> 0) (repeat 1 n)) by (clear; induction n; cbn; constructor; [lra|assumption]).
  rewrite <- (lu_rescaled (repeat 1 n) ss J n b HJ Hb (repeat_length _ _) Ls Hones Hnz).
  assert (Eb : zip_with Rmult (repeat 1 n) b = b) by (rewrite <- Hb; clear; induction b as [|x b IH]; cbn; [reflexivity|f_equal; [ring|exact IH]]). rewrite Eb. f_equal.
  unfold signed, rescaled_mat. f_equal. clear -J3 Hs. revert ss Hs. induction J3 as [|c cols Hc H IH]; intros [|s ss] Hs; cbn; try reflexivity. apply Forall_cons in Hs as [Hs0 Hs]. f_equal; [|apply IH; exact Hs].
  unfold turned_column, rescaled_column. assert (Ei : / s = s) by (apply (Rmult_eq_reg_l s); [rewrite Rinv_r, Hs0; [reflexivity|]|]; intros ->; lra).
  rewrite Ei, <- Hc. clear. induction c as [|x c IH]; cbn; [reflexivity|]. f_equal; [ring|exact IH].
Qed.
Lemma svd_signed ss J d : length ss = length (m_cols J) -> all_signs ss -> svd_of J d -> svd_of (signed ss J) (Svd (left d) (sing d) (map (zip_with Rmult ss) (right d))).
Proof.
  intros Ls Hs (H1 & H2 & H3 & H4 & H5 & H6 & H7 & H8). unfold svd_of. rewrite (signed_cols ss J Ls). cbn [left sing right signed m_rows].
  split; [exact H1|]. split; [rewrite map_length; exact H2|]. split; [exact H3|].
  split; [apply Forall_map; eapply Forall_impl; [exact H4|]; cbn; intros v E; rewrite zip_with_length; lia|]. split; [exact H5|].
  split; [|split; [exact H7|]].
  - intros i j a b Ha Hb. change (map (zip_with Rmult ss) (right d)) with (zip_with Rmult ss <$> right d) in Ha, Hb. rewrite list_lookup_fmap in Ha, Hb.
    destruct (right d !! i) as [a0|] eqn:Ea; [|discriminate]. destruct (right d !! j) as [b0|] eqn:Eb; [|discriminate]. injection Ha as <-. injection Hb as <-.
    rewrite Forall_forall in H4. rewrite dot_signed; [apply (H6 i j); assumption|exact Hs| |]; rewrite Ls; apply H4; eapply elem_of_list_lookup_2; eassumption.
  - intros x Hx. unfold act, signed. cbn [m_rows m_cols]. rewrite combine_signed by congruence. change (combine (m_rows J) (m_cols J) (zip_with Rmult ss x)) with (act J (zip_with Rmult ss x)).
    rewrite H8 by (rewrite zip_with_length; lia). do 2 f_equal. rewrite map_map. apply map_ext_in. intros v Hv. symmetry. apply dot_move; [|congruence].
    rewrite Ls. rewrite Forall_forall in H4. apply H4, elem_of_list_In. exact Hv.
Qed.
Lemma answer_signed ss J d eps b : length ss = length (m_cols J) -> svd_of J d ->
  answer (signed ss J) (Svd (left d) (sing d) (map (zip_with Rmult ss) (right d))) eps b = zip_with Rmult ss (answer J d eps b).
Proof.
  intros Ls Hd. unfold answer. cbn [left sing right]. rewrite (signed_cols ss J Ls). apply combine_zip; [exact Ls|apply Hd].
Qed.

(** the linear algebra treats a column and its negative alike *)
Definition sense_free (la : linalg R) : Prop := forall ss J b, length ss = length (m_cols J) -> all_signs ss -> tidy J -> length b = m_rows J ->
  (m_rows J = length (m_cols J) -> lu_solve la (signed ss J) b = zip_with Rmult ss <$> lu_solve la J b) /\
  svd_solve la (signed ss J) b = zip_with Rmult ss <$> svd_solve la J b /\ (forall x, svd_solve la J b = Some x -> length x = length (m_cols J)) /\
  match pinv la J, pinv la (signed ss J) with
  | Some P, Some P' => shaped P (length (m_cols J)) (m_rows J) /\ shaped P' (length (m_cols J)) (m_rows J) /\
      forall b, length b = m_rows J -> mat_vec P' b = zip_with Rmult ss (mat_vec P b)
  | None, None => True
  | _, _ => False
  end.
Lemma nalgebra_sense_free dec : decomposes dec -> sense_free (svd_linalg na_lu_solve dec).
Proof.
  intros Hdec ss J b Ls Hs HJ Hb. destruct eps_R as [_ He]. pose proof (signed_wf ss J HJ) as HJ'. pose proof (Hdec J HJ) as Hd. pose proof (Hdec _ HJ') as Hd'.
  pose proof (svd_signed ss J _ Ls Hs Hd) as Hdt. set (dt := Svd _ _ _) in Hdt. pose proof (signed_cols ss J Ls) as Lc.
  split; [|split; [|split]].
  - intros Hsq. cbn [svd_linalg lu_solve]. apply (lu_signed ss J (m_rows J)); [split; [reflexivity|split; [congruence|exact HJ]]|exact Hb|congruence|exact Hs].
  - cbn [svd_linalg svd_solve]. rewrite (solve_unique _ _ dt ik_eps b Hd' Hdt He), !solve_answer by assumption. cbn [fmap option_fmap option_map]. f_equal. apply answer_signed; assumption.
  - intros x Hx. cbn [svd_linalg svd_solve] in Hx. rewrite (solve_answer J) in Hx by assumption. injection Hx as <-. unfold answer. apply combine_length. apply Hd.
  - cbn [svd_linalg pinv]. destruct (pinv_answer J _ ik_eps Hd He) as (P & -> & HP & Ha). destruct (pinv_answer _ _ ik_eps Hd' He) as (P' & -> & HP' & Ha').
    rewrite Lc in HP'. split; [exact HP|]. split; [exact HP'|]. intros c Hc. pose proof HP as (R1 & C1 & L1). pose proof HP' as (R2 & C2 & L2). cbn [signed m_rows] in C2.
    rewrite !mat_vec_combine; [|try congruence; try (rewrite R1; exact L1); try (rewrite R2; exact L2) ..].
    all: try congruence; try (rewrite R1; exact L1); try (rewrite R2; exact L2).
    change (act P' c = zip_with Rmult ss (act P c)). rewrite Ha, Ha' by assumption. rewrite (answer_unique _ _ dt ik_eps _ Hd' Hdt He) by exact Hc. apply answer_signed; assumption.
Qed.
