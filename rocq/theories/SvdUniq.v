(** * The answer does not depend on the decomposition *)
From Coq Require Import String Reals Lra Lia.
From stdpp Require Import gmap.
From Verif Require Import Scalar ScalarR Geometry Joint Link Prog NodeM ChainM FuncsM IkM SpecNode SpecStep SvdM SpecLin LinAlgR LuM LuProofs SvdProofs SvdExist.
Local Open Scope R_scope.

Lemma dot_weigh s : forall a b, dot (zip_with Rmult s a) b = dot a (zip_with Rmult s b).
Proof. induction s as [|x s IH]; intros [|y a] [|z b]; cbn; try reflexivity. rewrite IH. ring. Qed.
Lemma lookup_weigh (s a : list R) i x y : s !! i = Some x -> a !! i = Some y -> zip_with Rmult s a !! i = Some (x * y).
Proof. intros H1 H2. rewrite lookup_zip_with, H1, H2. reflexivity. Qed.
Lemma lookup_coords us b i u : us !! i = Some u -> coords us b !! i = Some (dot u b).
Proof. intros H. unfold coords. rewrite list_lookup_fmap, H. reflexivity. Qed.

Section One.
  Variables (J : mat R) (d : svd R).
  Hypothesis HJ : svd_of J d.
  Let m := m_rows J. Let n := length (m_cols J).
  Variables (i : nat) (u v : list R) (s : R).
  Hypothesis Hu : left d !! i = Some u.
  Hypothesis Hv : right d !! i = Some v.
  Hypothesis Hs : sing d !! i = Some s.
  Lemma one_lengths : length u = m /\ length v = n /\ 0 <= s.
  Proof.
    destruct HJ as (_ & _ & Lu & Lv & _ & _ & Hp & _). 
    split; [exact (proj1 (Forall_lookup _ _) Lu i u Hu)|]. split; [exact (proj1 (Forall_lookup _ _) Lv i v Hv)|exact (proj1 (Forall_lookup _ _) Hp i s Hs)].
  Qed.
  Lemma one_right c : length c = m -> dot c (act J v) = s * dot u c.
  Proof.
    intros Hc. destruct one_lengths as (Lu & Lv & _). rewrite (dec_act J d HJ) by exact Lv. fold m.
    rewrite dot_comm, (coords_dot m) by (try exact Hc; exact (dec_us J d HJ)). rewrite dot_weigh, dot_comm.
    rewrite <- (coords_dot n) by (try exact Lv; exact (dec_vs J d HJ)). rewrite dot_comm.
    assert (E : coords (right d) (combine n (right d) (zip_with Rmult (sing d) (coords (left d) c))) = zip_with Rmult (sing d) (coords (left d) c)).
    { apply coords_combine; [exact (dec_vs J d HJ)|exact (dec_ov J d HJ)|]. rewrite zip_with_length, coords_length, (dec_lu J d HJ), (dec_lv J d HJ). lia. }
    apply (f_equal (fun l => l !! i)) in E. rewrite (lookup_coords _ _ _ _ Hv), (lookup_weigh _ _ _ _ _ Hs (lookup_coords _ _ _ _ Hu)) in E. congruence.
  Qed.
  Lemma one_left x : length x = n -> dot u (act J x) = s * dot v x.
  Proof.
    intros Hx. rewrite (dec_act J d HJ) by exact Hx. fold m.
    assert (E : coords (left d) (combine m (left d) (zip_with Rmult (sing d) (coords (right d) x))) = zip_with Rmult (sing d) (coords (right d) x)).
    { apply coords_combine; [exact (dec_us J d HJ)|exact (dec_ou J d HJ)|]. rewrite zip_with_length, coords_length, (dec_lu J d HJ), (dec_lv J d HJ). lia. }
    apply (f_equal (fun l => l !! i)) in E. rewrite (lookup_coords _ _ _ _ Hu), (lookup_weigh _ _ _ _ _ Hs (lookup_coords _ _ _ _ Hv)) in E. congruence.
  Qed.
End One.

Section Two.
  Variables (J : mat R) (d d' : svd R) (eps : R).
  Hypothesis HJ : svd_of J d.
  Hypothesis HJ' : svd_of J d'.
  Hypothesis Heps : 0 < eps.
  Let m := m_rows J. Let n := length (m_cols J).
  Lemma crossed i j u v s u' v' s' :
    left d !! i = Some u -> right d !! i = Some v -> sing d !! i = Some s ->
    left d' !! j = Some u' -> right d' !! j = Some v' -> sing d' !! j = Some s' -> 0 < s' ->
    dot u u' = dot v v' /\ (s <> s' -> dot v v' = 0).
  Proof.
    intros Hu Hv Hs Hu' Hv' Hs' Hp. destruct (one_lengths J d HJ i u v s Hu Hv Hs) as (Lu & Lv & H0). destruct (one_lengths J d' HJ' j u' v' s' Hu' Hv' Hs') as (Lu' & Lv' & _).
    pose proof (one_right J d HJ i u v s Hu Hv Hs u' Lu') as E1. pose proof (one_left J d' HJ' j u' v' s' Hu' Hv' Hs' v Lv) as E2.
    pose proof (one_right J d' HJ' j u' v' s' Hu' Hv' Hs' u Lu) as E3. pose proof (one_left J d HJ i u v s Hu Hv Hs v' Lv') as E4.
    rewrite E1 in E2. rewrite E3 in E4. rewrite (dot_comm v' v) in E2. rewrite (dot_comm u' u) in E4.
    assert (Epq : dot u u' = dot v v') by (apply Rmult_eq_reg_l with (s + s'); lra). split; [exact Epq|].
    intros Hne. rewrite Epq in E2. apply Rmult_eq_reg_l with (s - s'); lra.
  Qed.
  Lemma answer_other b : length b = m -> coords (right d') (answer J d eps b) = weights eps (sing d') (coords (left d') b).
  Proof.
    intros Hb. apply list_eq. intros j.
    pose proof (dec_lu J d' HJ') as Hl'. pose proof (dec_lv J d' HJ') as Hr'. cbn zeta in Hl', Hr'.
    pose proof (dec_lu J d HJ) as Hl. pose proof (dec_lv J d HJ) as Hr. cbn zeta in Hl, Hr.
    destruct (sing d' !! j) as [s'|] eqn:Hs'.
    2: { apply lookup_ge_None in Hs'. rewrite !(proj2 (lookup_ge_None _ _)); [reflexivity|unfold weights; rewrite zip_with_length; lia|rewrite coords_length; lia]. }
    destruct (lookup_lt_is_Some_2 (left d') j) as [u' Hu']; [rewrite Hl'; apply lookup_lt_Some in Hs'; exact Hs'|].
    destruct (lookup_lt_is_Some_2 (right d') j) as [v' Hv']; [rewrite Hr'; apply lookup_lt_Some in Hs'; exact Hs'|].
    destruct (one_lengths J d' HJ' j u' v' s' Hu' Hv' Hs') as (Lu' & Lv' & Hp').
    rewrite (lookup_coords _ _ _ _ Hv'). unfold weights at 1. rewrite lookup_zip_with, Hs', (lookup_coords _ _ _ _ Hu'). cbn. f_equal.
    unfold answer. rewrite dot_comm, (coords_dot n) by (try exact Lv'; exact (dec_vs J d HJ)).
    assert (Hterm : forall i u v s, left d !! i = Some u -> right d !! i = Some v -> sing d !! i = Some s ->
      (if Rlt_dec eps s then dot u b / s else 0) * dot v v' = (if Rlt_dec eps s' then / s' else 0) * (dot u b * dot u u')).
    { intros i u v s Hu Hv Hs. destruct (one_lengths J d HJ i u v s Hu Hv Hs) as (_ & _ & H0).
      destruct (Rlt_dec eps s') as [He'|He'].
      - destruct (crossed i j u v s u' v' s' Hu Hv Hs Hu' Hv' Hs') as [Epq Hz]; [lra|]. destruct (Req_dec s s') as [->|Hne].
        + destruct (Rlt_dec eps s'); [|contradiction]. rewrite Epq. field. lra.
        + rewrite Epq, (Hz Hne). ring.
      - rewrite Rmult_0_l. destruct (Rlt_dec eps s) as [He|He]; [|ring].
        assert (Hvv : dot v v' = 0); [|rewrite Hvv; ring].
        destruct (one_lengths J d HJ i u v s Hu Hv Hs) as (Lu & Lv & _).
        pose proof (one_right J d HJ i u v s Hu Hv Hs u' Lu') as E1. pose proof (one_left J d' HJ' j u' v' s' Hu' Hv' Hs' v Lv) as E2.
        pose proof (one_right J d' HJ' j u' v' s' Hu' Hv' Hs' u Lu) as E3. pose proof (one_left J d HJ i u v s Hu Hv Hs v' Lv') as E4.
        rewrite E1 in E2. rewrite E3 in E4. rewrite (dot_comm v' v) in E2. rewrite (dot_comm u' u) in E4.
        assert (Epq : dot u u' = dot v v') by (apply Rmult_eq_reg_l with (s + s'); lra).
        rewrite Epq in E2. apply Rmult_eq_reg_l with (s - s'); lra. }
    assert (Esum : dot (weights eps (sing d) (coords (left d) b)) (coords (right d) v') = (if Rlt_dec eps s' then / s' else 0) * dot (coords (left d) b) (coords (left d) u')).
    { revert Hterm Hl Hr. generalize (if Rlt_dec eps s' then / s' else 0). intros w. unfold weights, coords. clear.
      generalize (left d), (right d), (sing d). intros us vs ss. revert vs ss.
      induction us as [|u us IH]; intros [|v vs] [|s ss] H Hl Hr; try discriminate; cbn; [ring|].
      rewrite (IH vs ss); [|intros i u0 v0 s0 H1 H2 H3; exact (H (S i) u0 v0 s0 H1 H2 H3)|cbn in *; lia|cbn in *; lia].
      pose proof (H 0%nat u v s eq_refl eq_refl eq_refl) as E0. rewrite E0. ring. }
    rewrite Esum. destruct (Rlt_dec eps s') as [He'|He']; [|ring].
    assert (Eu : s' * dot (coords (left d) b) (coords (left d) u') = s' * dot u' b).
    { pose proof (one_right J d' HJ' j u' v' s' Hu' Hv' Hs' b Hb) as E. rewrite <- E.
      rewrite (dec_act J d HJ) by exact Lv'. fold m. rewrite (dot_comm b), (coords_dot m) by (try exact Hb; exact (dec_us J d HJ)).
      (* the coordinates of s' u' *)
      assert (Ec : zip_with Rmult (sing d) (coords (right d) v') = lscale s' (coords (left d) u')).
      { apply list_eq. intros i. destruct (sing d !! i) as [s|] eqn:Hs.
        - destruct (lookup_lt_is_Some_2 (left d) i) as [u Hu]; [rewrite Hl; apply lookup_lt_Some in Hs; exact Hs|].
          destruct (lookup_lt_is_Some_2 (right d) i) as [v Hv]; [rewrite Hr; apply lookup_lt_Some in Hs; exact Hs|].
          rewrite (lookup_weigh _ _ _ _ _ Hs (lookup_coords _ _ _ _ Hv)). unfold lscale. rewrite list_lookup_fmap, (lookup_coords _ _ _ _ Hu). cbn. f_equal.
          pose proof (one_left J d HJ i u v s Hu Hv Hs v' Lv') as E4. destruct (one_lengths J d HJ i u v s Hu Hv Hs) as (Lu & Lv & _).
          pose proof (one_right J d' HJ' j u' v' s' Hu' Hv' Hs' u Lu) as E3. rewrite <- E4, E3, (dot_comm u' u). reflexivity.
        - apply lookup_ge_None in Hs. rewrite !(proj2 (lookup_ge_None _ _)); [reflexivity|rewrite lscale_length, coords_length; lia|rewrite zip_with_length; lia]. }
      rewrite Ec, dot_scale_l, (dot_comm (coords (left d) b)). reflexivity. }
    apply Rmult_eq_reg_l in Eu; [rewrite Eu; field; lra|lra].
  Qed.
End Two.

Lemma answer_unique J d d' eps b : svd_of J d -> svd_of J d' -> 0 < eps -> length b = m_rows J -> answer J d eps b = answer J d' eps b.
Proof.
  intros H H' He Hb. set (n := length (m_cols J)).
  assert (E : answer J d' eps b = combine n (right d') (coords (right d') (answer J d eps b))) by (rewrite (answer_other J d d' eps H H' He b Hb); reflexivity).
  assert (E' : answer J d eps b = combine n (right d) (coords (right d) (answer J d' eps b))) by (rewrite (answer_other J d' d eps H' H He b Hb); reflexivity).
  set (x := answer J d eps b) in *. set (y := answer J d' eps b) in *.
  assert (Lx : length x = n) by (apply answer_length; exact H). assert (Ly : length y = n) by (apply answer_length; exact H').
  assert (Hxy : dot x x <= dot y y).
  { rewrite E' at 1 2. rewrite (parseval n) by (try apply coords_length; try exact (dec_vs J d H); exact (dec_ov J d H)).
    apply (bessel n); [exact (dec_vs J d H)|exact (dec_ov J d H)|exact Ly]. }
  assert (Hd : dot (diff x y) (diff x y) = dot x x - dot y y).
  { rewrite dot_diff by congruence. assert (Eq : dot x y = dot y y); [|lra]. rewrite E at 1. rewrite dot_comm, (coords_dot n) by (try exact Lx; exact (dec_vs J d' H')).
    rewrite E at 1. rewrite E at 1. rewrite (parseval n) by (try apply coords_length; try exact (dec_vs J d' H'); exact (dec_ov J d' H')). reflexivity. }
  pose proof (dot_nonneg (diff x y)) as Hn. assert (Hz : dot (diff x y) (diff x y) = 0) by lra. apply dot_pos_zero in Hz.
  clearbody x y. rewrite <- Ly in Lx. clear -Hz Lx. unfold diff, zeros in Hz. revert y Lx Hz.
  induction x as [|p x IH]; intros [|q y] Hl Hz; try discriminate; [reflexivity|]. cbn in *. injection Hz as E1 E2. f_equal; [lra|]. apply IH; [lia|exact E2].
Qed.

(** also for right sides of a wrong length *)
Definition fitted (m : nat) (b : list R) : list R := take m (b ++ zeros m).
Lemma fitted_length m b : length (fitted m b) = m.
Proof. unfold fitted, zeros. rewrite take_length, app_length, repeat_length. lia. Qed.
Lemma dot_fitted u : forall b, dot u (fitted (length u) b) = dot u b.
Proof.
  unfold fitted. induction u as [|x u IH]; intros [|y b]; cbn; try reflexivity.
  - rewrite Rmult_0_r, Rplus_0_l. rewrite firstn_all2 by (unfold zeros; rewrite repeat_length; lia). apply dot_zeros.
  - f_equal. rewrite <- (IH b). f_equal. clear. revert b. generalize (length u). intros n b.
    change (zeros (S n)) with (0 :: repeat 0 n). rewrite repeat_cons. fold (zeros n).
    rewrite app_assoc. rewrite take_app_le; [reflexivity|]. rewrite app_length. unfold zeros. rewrite repeat_length. lia.
Qed.
Lemma solve_unique J d d' eps b : svd_of J d -> svd_of J d' -> 0 < eps ->
  na_svd_solve d (length (m_cols J)) eps b = na_svd_solve d' (length (m_cols J)) eps b.
Proof.
  intros H H' He. rewrite !(solve_answer J) by assumption. f_equal.
  assert (E : forall d, svd_of J d -> answer J d eps b = answer J d eps (fitted (m_rows J) b)).
  { intros d0 H0. unfold answer. do 2 f_equal. unfold coords. pose proof (dec_us J d0 H0) as Hu. cbn zeta in Hu.
    clear -Hu. induction Hu as [|u us Hu Hus IH]; cbn; [reflexivity|]. rewrite IH. f_equal. rewrite <- Hu. symmetry. apply dot_fitted. }
  rewrite (E d H), (E d' H'). apply answer_unique; try assumption. apply fitted_length.
Qed.
