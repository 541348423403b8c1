(** * Linear systems with rows of the other sign *)
From Coq Require Import String Reals Lra Lia.
From stdpp Require Import gmap.
From Verif Require Import Scalar ScalarR Geometry Joint Link Prog NodeM ChainM FuncsM IkM LuM SvdM SpecGeom
  SpecStep SpecLin LinAlgR SvdProofs SvdUniq SvdDet LinArm SpecUnit UnitLin SpecSense SenseLin BaseLin PropLu PropSvd PropSvd2.
Local Open Scope R_scope.

Definition rowed (rs : list R) (J : mat R) : mat R := Mat (m_rows J) (map (zip_with Rmult rs) (m_cols J)).

Lemma rowed_tidy rs J : length rs = m_rows J -> tidy J -> tidy (rowed rs J).
Proof. unfold tidy, rowed. cbn [m_rows m_cols]. intros L H. apply Forall_map. eapply Forall_impl; [exact H|]. cbn. intros c E. rewrite zip_with_length. lia. Qed.
Lemma rowed_cols rs J : length (m_cols (rowed rs J)) = length (m_cols J).
Proof. unfold rowed. cbn [m_cols]. apply map_length. Qed.
Lemma act_rowed rs J x : length rs = m_rows J -> tidy J -> act (rowed rs J) x = zip_with Rmult rs (act J x).
Proof. intros L H. unfold act, rowed. cbn [m_rows m_cols]. apply combine_zip; assumption. Qed.
Lemma lu_rowed rs J n b : shaped J n n -> length b = n -> length rs = n -> all_signs rs ->
  na_lu_solve (rowed rs J) (zip_with Rmult rs b) = na_lu_solve J b.
Proof.
  intros HJ Hb Lr Hs. pose proof HJ as (J1 & J2 & J3).
  assert (Hnz : Forall (fun u => u <> 0) rs) by (eapply Forall_impl; [exact Hs|]; cbn; intros s E ->; lra).
  assert (Hones : Forall (fun r : R => r <> 0) (repeat 1 n)) by (clear; induction n; cbn; constructor; [lra|assumption]).
  pose proof (lu_rescaled rs (repeat 1 n) J n b HJ Hb Lr (repeat_length _ _) Hnz Hones) as H.
  assert (E : rescaled_mat rs (repeat 1 n) J = rowed rs J).
  { unfold rescaled_mat, rowed. f_equal. rewrite <- J2. clear. induction (m_cols J) as [|c cols IH]; cbn; [reflexivity|]. f_equal; [|exact IH].
    unfold rescaled_column. rewrite Rinv_1. induction (zip_with Rmult rs c) as [|x l IHl]; cbn; [reflexivity|]. f_equal; [ring|exact IHl]. }
  rewrite E in H. rewrite H. destruct (na_lu_solve J b) as [x|] eqn:Ex; [|reflexivity]. cbn. f_equal.
  destruct (C66_lu_exact J n b x HJ Hb Ex) as ((Lx & _) & _). rewrite J2 in Lx. rewrite <- Lx. clear. induction x as [|y x IH]; cbn; [reflexivity|]. f_equal; [ring|exact IH].
Qed.
Lemma svd_rowed rs J d : length rs = m_rows J -> all_signs rs -> svd_of J d -> tidy J -> svd_of (rowed rs J) (Svd (map (zip_with Rmult rs) (left d)) (sing d) (right d)).
Proof.
  intros Ls Hs (H1 & H2 & H3 & H4 & H5 & H6 & H7 & H8) Ht. unfold svd_of. rewrite rowed_cols. cbn [left sing right].
  split; [rewrite map_length; exact H1|]. split; [exact H2|].
  split; [apply Forall_map; eapply Forall_impl; [exact H3|]; cbn; intros v E; rewrite zip_with_length; lia|]. split; [exact H4|].
  split; [|split; [exact H6|split; [exact H7|]]].
  - intros i j a b Ha Hb. change (map (zip_with Rmult rs) (left d)) with (zip_with Rmult rs <$> left d) in Ha, Hb. rewrite list_lookup_fmap in Ha, Hb.
    destruct (left d !! i) as [a0|] eqn:Ea; [|discriminate]. destruct (left d !! j) as [b0|] eqn:Eb; [|discriminate]. injection Ha as <-. injection Hb as <-.
    rewrite Forall_forall in H3. rewrite dot_signed; [apply (H5 i j); assumption|exact Hs| |]; rewrite Ls; apply H3; eapply elem_of_list_lookup_2; eassumption.
  - intros x Hx. rewrite act_rowed by assumption. rewrite H8 by exact Hx. cbn [rowed m_rows]. symmetry. apply combine_zip; assumption.
Qed.
Lemma answer_rowed rs J d eps b : length rs = m_rows J -> all_signs rs -> svd_of J d -> length b = m_rows J ->
  answer (rowed rs J) (Svd (map (zip_with Rmult rs) (left d)) (sing d) (right d)) eps (zip_with Rmult rs b) = answer J d eps b.
Proof.
  intros Ls Hs Hd Hb. unfold answer. cbn [left sing right]. rewrite rowed_cols. do 2 f_equal. unfold coords. rewrite map_map. apply map_ext_in. intros u Hu.
  apply dot_signed; [exact Hs| |congruence]. destruct Hd as (_ & _ & H3 & _). rewrite Forall_forall in H3. rewrite Ls. apply H3, elem_of_list_In. exact Hu.
Qed.

(** the linear algebra gives the same answer if rows change their sign *)
Definition row_free (la : linalg R) : Prop := forall rs J b, length rs = m_rows J -> all_signs rs -> tidy J -> length b = m_rows J ->
  (m_rows J = length (m_cols J) -> lu_solve la (rowed rs J) (zip_with Rmult rs b) = lu_solve la J b) /\
  svd_solve la (rowed rs J) (zip_with Rmult rs b) = svd_solve la J b /\
  match pinv la J, pinv la (rowed rs J) with
  | Some P, Some P' => shaped P (length (m_cols J)) (m_rows J) /\ shaped P' (length (m_cols J)) (m_rows J) /\
      forall b, length b = m_rows J -> act P' (zip_with Rmult rs b) = act P b
  | None, None => True
  | _, _ => False
  end.
Lemma nalgebra_row_free dec : decomposes dec -> row_free (svd_linalg na_lu_solve dec).
Proof.
  intros Hdec rs J b Ls Hs HJ Hb. destruct eps_R as [_ He]. pose proof (rowed_tidy rs J Ls HJ) as HJ'. pose proof (Hdec J HJ) as Hd. pose proof (Hdec _ HJ') as Hd'.
  pose proof (svd_rowed rs J _ Ls Hs Hd HJ) as Hdt. set (dt := Svd _ _ _) in Hdt. pose proof (rowed_cols rs J) as Lc.
  assert (Hz : forall c, length c = m_rows J -> length (zip_with Rmult rs c) = m_rows J) by (intros c Hc; rewrite zip_with_length; lia).
  split; [|split].
  - intros Hsq. cbn [svd_linalg lu_solve]. apply (lu_rowed rs J (m_rows J)); [split; [reflexivity|split; [congruence|exact HJ]]|exact Hb|exact Ls|exact Hs].
  - cbn [svd_linalg svd_solve]. rewrite (solve_unique _ _ dt ik_eps (zip_with Rmult rs b) Hd' Hdt He), !solve_answer by (try assumption; apply Hz, Hb). f_equal. apply answer_rowed; assumption.
  - cbn [svd_linalg pinv]. destruct (pinv_answer J _ ik_eps Hd He) as (P & -> & HP & Ha). destruct (pinv_answer _ _ ik_eps Hd' He) as (P' & -> & HP' & Ha').
    rewrite Lc in HP'. split; [exact HP|]. split; [exact HP'|]. intros c Hc.
    rewrite Ha, Ha' by (try assumption; apply Hz, Hc). rewrite (answer_unique _ _ dt ik_eps _ Hd' Hdt He) by (apply Hz, Hc). apply answer_rowed; assumption.
Qed.
Lemma null_rowed rs J P P' r n e s : length rs = r -> all_signs rs -> shaped J r n -> shaped P n r -> shaped P' n r -> length e = r -> length s = n ->
  (forall b, length b = r -> act P' (zip_with Rmult rs b) = act P b) ->
  vec_add (mat_vec P' (zip_with Rmult rs e)) (mat_vec (mat_sub (ident (m_rows P')) (mat_mul P' (rowed rs J))) s) =
  vec_add (mat_vec P e) (mat_vec (mat_sub (ident (m_rows P)) (mat_mul P J)) s).
Proof.
  intros Ls Hs HJ HP HP' He Hls Hm. pose proof HJ as (J1 & J2 & J3).
  assert (Ht : tidy J) by (unfold tidy; rewrite J1; exact J3).
  assert (HJ' : shaped (rowed rs J) r n).
  { split; [exact J1|]. split; [rewrite rowed_cols; exact J2|]. pose proof (rowed_tidy rs J) as H. unfold tidy in H. cbn [rowed m_rows] in H. rewrite J1 in H. apply H; [exact Ls|exact J3]. }
  rewrite (null_vec (rowed rs J) P' r n _ s HJ' HP') by (rewrite ?zip_with_length; lia). rewrite (null_vec J P r n e s HJ HP He Hls).
  rewrite act_rowed by (try exact Ht; congruence). rewrite !Hm; [reflexivity| |exact He]. eapply act_length; eauto.
Qed.
