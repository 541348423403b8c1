(** * Solving by singular values, over the reals *)
From Coq Require Import String Reals Lra.
From stdpp Require Import gmap.
From Verif Require Import Scalar ScalarR Geometry Joint Link Prog NodeM ChainM FuncsM IkM SpecNode SpecStep SvdM SpecLin LinAlgR LuM LuProofs.
Local Open Scope R_scope.

Lemma dot_comm a : forall b, dot a b = dot b a.
Proof. induction a as [|x a IH]; intros [|y b]; cbn; try reflexivity. rewrite IH. ring. Qed.
Lemma dot_nonneg a : 0 <= dot a a.
Proof. induction a as [|x a IH]; cbn; [lra|]. nra. Qed.
Lemma dot_pos_zero a : dot a a = 0 -> a = zeros (length a).
Proof. unfold zeros. induction a as [|x a IH]; cbn; [reflexivity|]. intros E. pose proof (dot_nonneg a). assert (x = 0) by nra. f_equal; [assumption|]. apply IH. nra. Qed.
Lemma dot_add a : forall x y, length x = length y -> dot a (ladd x y) = dot a x + dot a y.
Proof. induction a as [|u a IH]; intros [|v x] [|w y] E; try discriminate; cbn; try ring. unfold ladd in IH. cbn. rewrite IH by (cbn in E; lia). ring. Qed.
Lemma dot_scale k a : forall x, dot a (lscale k x) = k * dot a x.
Proof. induction a as [|u a IH]; intros [|v x]; cbn; try ring. unfold lscale in IH. rewrite IH. ring. Qed.
Lemma dot_diff a : forall b, length a = length b -> dot (diff a b) (diff a b) = dot a a - 2 * dot a b + dot b b.
Proof. unfold diff. induction a as [|u a IH]; intros [|w b] E; try discriminate; cbn; [ring|]. rewrite IH by (cbn in E; lia). ring. Qed.
Lemma dot_zeros a n : dot a (zeros n) = 0.
Proof. unfold zeros. revert n. induction a as [|u a IH]; intros [|n]; cbn; try reflexivity. rewrite IH. ring. Qed.
Lemma dot_combine w n cols : length w = n -> Forall (fun c => length c = n) cols -> forall x, dot w (combine n cols x) = dot (map (dot w) cols) x.
Proof.
  intros Hw. induction 1 as [|c cols Hc H IH]; intros [|y x]; cbn [combine map dot]; try apply dot_zeros.
  rewrite <- IH. assert (E : zip_with (fun a s => a * y + s) c (combine n cols x) = ladd (lscale y c) (combine n cols x)).
  { unfold ladd, lscale. generalize (combine n cols x). clear. induction c as [|u c IH]; intros [|v l]; cbn; try reflexivity. rewrite IH. f_equal. ring. }
  rewrite E, dot_add by (rewrite lscale_length, combine_length by exact H; exact Hc). rewrite dot_scale. ring.
Qed.

Definition coords (us : list (list R)) (b : list R) : list R := map (fun u => dot u b) us.
Lemma coords_length us b : length (coords us b) = length us.
Proof. apply map_length. Qed.
Lemma ad_mul_coords us b : ad_mul us b = coords us b.
Proof.
  unfold ad_mul, coords. apply List.map_ext. intros c. unfold lsum. rewrite lsum_acc. cbn. rewrite Rplus_0_l. revert b.
  induction c as [|x c IH]; intros [|y b]; cbn; try reflexivity. rewrite <- IH. reflexivity.
Qed.
Lemma orthonormal_cons u us : orthonormal (u :: us) -> dot u u = 1 /\ Forall (fun v => dot u v = 0) us /\ orthonormal us.
Proof.
  intros H. split; [exact (H 0%nat 0%nat u u eq_refl eq_refl)|]. split.
  - apply Forall_lookup_2. intros i v Hi. exact (H 0%nat (S i) u v eq_refl Hi).
  - intros i j a b Ha Hb. rewrite (H (S i) (S j) a b Ha Hb). destruct (decide (i = j)), (decide (S i = S j)); congruence.
Qed.
Lemma dot_map_zero us u x : Forall (fun v => dot u v = 0) us -> dot (map (dot u) us) x = 0.
Proof. intros H. revert x. induction H as [|v us Hv H IH]; intros [|y x]; cbn; try reflexivity. rewrite Hv, IH. ring. Qed.
Lemma coords_combine n us : Forall (fun u => length u = n) us -> orthonormal us -> forall a, length a = length us -> coords us (combine n us a) = a.
Proof.
  induction 1 as [|u us Hu H IH]; intros Ho [|y a] E; try discriminate; [reflexivity|]. injection E as E.
  apply orthonormal_cons in Ho as (H1 & H0 & Ho). specialize (IH Ho a E). unfold coords. cbn [map]. apply (f_equal2 cons).
  - rewrite dot_combine by (auto using Forall_cons_2). cbn [map dot]. rewrite H1, dot_map_zero by exact H0. ring.
  - transitivity (coords us (combine n us a)); [|exact IH]. unfold coords. apply map_ext_in. intros v Hv. apply elem_of_list_In in Hv.
    rewrite Forall_forall in H, H0. pose proof (H v Hv) as Lv. pose proof (H0 v Hv) as Ov.
    assert (Hall : Forall (fun c => length c = n) us) by (apply Forall_forall; exact H).
    rewrite (dot_combine v n (u :: us)) by (auto using Forall_cons_2). rewrite (dot_combine v n us) by assumption.
    cbn [map dot]. rewrite (dot_comm v u), Ov. ring.
Qed.
Lemma coords_dot n us a b : Forall (fun u => length u = n) us -> length b = n -> dot (combine n us a) b = dot a (coords us b).
Proof.
  intros H Hb. rewrite dot_comm, dot_combine by assumption. rewrite dot_comm. f_equal. unfold coords. apply List.map_ext. intros u. apply dot_comm.
Qed.
Lemma parseval n us a c : Forall (fun u => length u = n) us -> orthonormal us -> length c = length us -> dot (combine n us a) (combine n us c) = dot a c.
Proof. intros H Ho Hc. rewrite (coords_dot n) by (try apply combine_length; exact H). rewrite coords_combine by assumption. reflexivity. Qed.
Lemma bessel n us x : Forall (fun u => length u = n) us -> orthonormal us -> length x = n -> dot (coords us x) (coords us x) <= dot x x.
Proof.
  intros H Ho Hx. set (p := combine n us (coords us x)). pose proof (dot_nonneg (diff x p)) as Hn.
  rewrite dot_diff in Hn by (unfold p; rewrite combine_length; auto). unfold p in Hn.
  rewrite parseval in Hn by (auto using coords_length). rewrite (dot_comm x (combine _ _ _)), (coords_dot n us (coords us x) x) in Hn by assumption. lra.
Qed.

Definition kept (eps : R) (sg c : list R) : list R := zip_with (fun s y => if Rlt_dec eps s then y else 0) sg c.
Definition weights (eps : R) (sg c : list R) : list R := zip_with (fun s y => if Rlt_dec eps s then y / s else 0) sg c.
Lemma zip_length_2 {A B C} (f : A -> B -> C) (l : list A) (k : list B) n : length l = n -> length k = n -> length (zip_with f l k) = n.
Proof. intros H1 H2. rewrite zip_with_length. lia. Qed.

Section Dec.
  Variables (J : mat R) (d : svd R) (eps : R).
  Hypothesis HJ : svd_of J d.
  Hypothesis Heps : 0 < eps.
  Let m := m_rows J. Let n := length (m_cols J).
  Let us := left d. Let vs := right d. Let sg := sing d.
  Let k := length sg.
  Lemma dec_lu : length us = k. Proof. apply HJ. Qed.
  Lemma dec_lv : length vs = k. Proof. apply HJ. Qed.
  Lemma dec_us : Forall (fun u => length u = m) us. Proof. apply HJ. Qed.
  Lemma dec_vs : Forall (fun u => length u = n) vs. Proof. apply HJ. Qed.
  Lemma dec_ou : orthonormal us. Proof. apply HJ. Qed.
  Lemma dec_ov : orthonormal vs. Proof. apply HJ. Qed.
  Lemma dec_act x : length x = n -> act J x = combine m us (zip_with Rmult sg (coords vs x)). Proof. apply HJ. Qed.
  Hint Resolve dec_lu dec_lv dec_us dec_vs dec_ou dec_ov : core.

  Definition answer (b : list R) : list R := combine n vs (weights eps sg (coords us b)).
  Lemma solve_answer b : na_svd_solve d n eps b = Some (answer b).
  Proof.
    unfold na_svd_solve. change (slt eps szero) with (Rltb eps 0). unfold Rltb. destruct (Rlt_dec eps 0); [lra|].
    rewrite mat_vec_combine by (cbn; exact dec_vs). cbn [m_rows m_cols]. rewrite ad_mul_coords. do 2 f_equal. unfold answer, weights. f_equal.
    apply zip_ext. intros s y. change (sgt s eps) with (Rltb eps s). unfold Rltb. destruct (Rlt_dec eps s); reflexivity.
  Qed.
  Lemma weights_length b : length (weights eps sg (coords us b)) = k.
  Proof. apply zip_length_2; [reflexivity|rewrite coords_length; auto]. Qed.
  Lemma answer_length b : length (answer b) = n.
  Proof. apply combine_length, dec_vs. Qed.
  (** the motion is bounded *)
  Lemma answer_bound b : length b = m -> dot (answer b) (answer b) * (eps * eps) <= dot b b.
  Proof.
    intros Hb. unfold answer. rewrite parseval; [|auto|auto|rewrite weights_length; auto].
    eapply Rle_trans; [|apply (bessel m us b); auto]. generalize (coords us b). unfold weights. generalize sg. clear -Heps.
    intros l. induction l as [|s l IH]; intros [|y c]; cbn; try lra; [pose proof (dot_nonneg c); nra|]. specialize (IH c).
    destruct (Rlt_dec eps s) as [Hs|Hs]; [|nra].
    assert (Hy : y / s * (y / s) * (eps * eps) <= y * y); [|nra].
    replace (y / s * (y / s) * (eps * eps)) with (y * y * (eps * eps / (s * s))) by (field; lra).
    assert (Hle : eps * eps / (s * s) <= 1); [|pose proof (Rle_0_sqr y) as Hq; unfold Rsqr in Hq; nra].
    apply Rmult_le_reg_r with (s * s); [nra|]. replace (eps * eps / (s * s) * (s * s)) with (eps * eps) by (field; lra). nra.
  Qed.
  Lemma answer_coords b : coords vs (answer b) = weights eps sg (coords us b).
  Proof. unfold answer. apply coords_combine; auto. rewrite weights_length. auto. Qed.
  (** the answer hits the components with a large singular value *)
  Lemma act_answer b : act J (answer b) = combine m us (kept eps sg (coords us b)).
  Proof.
    rewrite dec_act by apply answer_length. rewrite answer_coords. f_equal. generalize (coords us b). unfold weights, kept. generalize sg. clear -Heps.
    intros l. induction l as [|s l IH]; intros [|y c]; cbn; try reflexivity. rewrite IH. f_equal. destruct (Rlt_dec eps s); [field; lra|ring].
  Qed.
  Lemma kept_length b : length (kept eps sg (coords us b)) = k.
  Proof. apply zip_length_2; [reflexivity|rewrite coords_length; auto]. Qed.
  Lemma residual b : length b = m ->
    dot (diff (act J (answer b)) b) (diff (act J (answer b)) b) = dot b b - dot (kept eps sg (coords us b)) (kept eps sg (coords us b)).
  Proof.
    intros Hb. rewrite act_answer, dot_diff by (rewrite combine_length by auto; auto).
    rewrite parseval; [|auto|auto|rewrite kept_length; auto]. rewrite (coords_dot m) by auto.
    assert (E : dot (kept eps sg (coords us b)) (coords us b) = dot (kept eps sg (coords us b)) (kept eps sg (coords us b))); [|lra].
    generalize (coords us b). unfold kept. generalize sg. clear. intros l. induction l as [|s l IH]; intros [|y c]; cbn; try reflexivity.
    rewrite IH. destruct (Rlt_dec eps s); ring.
  Qed.
  Section Gap.
    Hypothesis Hgap : gap d eps.
    Lemma gap_exact x0 : length x0 = n -> act J (answer (act J x0)) = act J x0.
    Proof.
      intros Hx. rewrite act_answer. rewrite (dec_act x0 Hx) at 2. f_equal.
      rewrite (dec_act x0 Hx). rewrite coords_combine; [|exact dec_us|exact dec_ou|].
      2:{ apply eq_trans with k; [apply zip_length_2; [reflexivity|rewrite coords_length; auto]|symmetry; auto]. }
      generalize (coords vs x0). unfold kept, gap in *. fold sg in Hgap. revert Hgap. generalize sg. clear.
      intros l Hg. induction Hg as [|s l Hs Hg IH]; intros [|y c]; cbn; try reflexivity. rewrite IH. f_equal. destruct (Rlt_dec eps s); [reflexivity|].
      destruct Hs as [->|]; [ring|contradiction].
    Qed.
    (** how much worse another motion is *)
    Lemma residual_other b x' : length b = m -> length x' = n ->
      let a := zip_with Rmult sg (coords vs x') in let c := kept eps sg (coords us b) in
      dot (diff (act J x') b) (diff (act J x') b) = dot (diff (act J (answer b)) b) (diff (act J (answer b)) b) + dot (diff a c) (diff a c).
    Proof.
      intros Hb Hx a c. assert (La : length a = k) by (apply zip_length_2; [reflexivity|rewrite coords_length; auto]).
      pose proof (kept_length b) as Lc. fold c in Lc.
      rewrite residual by exact Hb. fold c. rewrite (dec_act x' Hx), dot_diff by (rewrite combine_length by auto; auto). fold a.
      rewrite parseval; [|auto|auto|rewrite La; auto]. rewrite (coords_dot m) by auto. rewrite dot_diff by congruence.
      assert (E : dot a (coords us b) = dot a c); [|lra].
      unfold a, c, kept, gap in *. fold sg in Hgap. revert Hgap. generalize sg, (coords vs x'), (coords us b). clear.
      intros l p q Hg. revert p q. induction Hg as [|s l Hs Hg IH]; intros [|y p] [|z q]; cbn; try reflexivity. rewrite IH.
      destruct (Rlt_dec eps s); [reflexivity|]. destruct Hs as [->|]; [ring|contradiction].
    Qed.
    Lemma least_norm_lemma b x' : length b = m -> length x' = n ->
      dot (diff (act J x') b) (diff (act J x') b) = dot (diff (act J (answer b)) b) (diff (act J (answer b)) b) ->
      dot (answer b) (answer b) <= dot x' x'.
    Proof.
      intros Hb Hx E. rewrite (residual_other b x' Hb Hx) in E.
      set (a := zip_with Rmult sg (coords vs x')) in E. set (c := kept eps sg (coords us b)) in E.
      assert (La : length a = k) by (apply zip_length_2; [reflexivity|rewrite coords_length; auto]). pose proof (kept_length b) as Lc. fold c in Lc.
      assert (Ez : diff a c = zeros (length (diff a c))) by (apply dot_pos_zero; lra).
      assert (Eac : a = c).
      { revert Ez. assert (Hl : length a = length c) by congruence. revert Hl. generalize a c. clear. intros a. unfold diff, zeros.
        induction a as [|u a IH]; intros [|w c] Hl E; try discriminate; [reflexivity|]. cbn in E. injection E as E1 E2. f_equal; [lra|]. apply IH; [cbn in Hl; lia|exact E2]. }
      eapply Rle_trans; [|apply (bessel n vs x'); auto]. unfold answer. rewrite parseval; [|auto|auto|rewrite weights_length; auto].
      revert Eac. unfold a, c, kept, weights. assert (Hlv : length (coords vs x') = k) by (rewrite coords_length; auto).
      assert (Hlu : length (coords us b) = k) by (rewrite coords_length; auto). revert Hlv Hlu. unfold k.
      generalize sg, (coords vs x'), (coords us b). clear -Heps. intros l.
      induction l as [|s l IH]; intros [|y p] [|z q] H1 H2 E; try discriminate; cbn; [lra|]. cbn in E. injection E as E1 E2.
      specialize (IH p q ltac:(cbn in *; lia) ltac:(cbn in *; lia) E2). destruct (Rlt_dec eps s) as [Hs|Hs]; [|nra].
      assert (z / s = y) as -> by (rewrite <- E1; field; lra). lra.
    Qed.
  End Gap.

  (** the pseudo inverse is the same map *)
  Lemma transpose us' m' b : Forall (fun u => length u = m') us' -> length b = m' ->
    combine (length us') (map (row (Mat m' us')) (seq 0 m')) b = coords us' b.
  Proof.
    intros H Hb. induction H as [|u us' Hu H IH].
    - cbn. assert (G : forall l x, combine 0 (map (row (Mat m' [])) l) x = []); [|apply G].
      clear. induction l as [|r l IH]; intros [|y x]; cbn; try reflexivity.
    - cbn [length coords map]. rewrite combine_split by (apply Forall_map, Forall_true; intros r; unfold row; cbn; rewrite map_length; reflexivity).
      rewrite !map_map. apply (f_equal2 cons).
      + f_equal. transitivity (map (fun r => nth r u 0) (seq 0 m')); [reflexivity|]. apply map_nth_seq. exact Hu.
      + exact IH.
  Qed.
  Lemma pinv_answer : exists P, na_pinv d m n eps = Some P /\ shaped P n m /\ forall b, length b = m -> act P b = answer b.
  Proof.
    unfold na_pinv. change (slt eps szero) with (Rltb eps 0). unfold Rltb at 1. destruct (Rlt_dec eps 0); [lra|].
    set (inv := map _ (sing d)). set (scaled := zip_with _ (left d) inv). eexists. split; [reflexivity|].
    assert (Hinv : length inv = k) by (unfold inv; apply map_length).
    assert (Hls : length scaled = k) by (apply zip_length_2; [auto|exact Hinv]).
    assert (Hsc : Forall (fun u => length u = m) scaled).
    { unfold scaled. generalize inv. fold us. pose proof dec_us as H. revert H. generalize us. clear. intros l H. induction H as [|u l Hu H IH]; intros [|s i]; cbn; constructor; auto.
      rewrite map_length. exact Hu. }
    split.
    - split; [reflexivity|]. cbn [m_cols]. split; [rewrite map_length, seq_length; reflexivity|]. apply Forall_map, Forall_true. intros r.
      unfold mat_vec. rewrite map_length, seq_length. reflexivity.
    - intros b Hb. unfold act. cbn [m_rows m_cols]. rewrite <- (map_map (row (Mat m scaled)) (mat_vec (Mat n (right d)))).
      etransitivity; [apply (mat_mul_combine (Mat n (right d)) (Mat k (map (row (Mat m scaled)) (seq 0 m))))|]; cbn [m_rows m_cols].
      5:{ unfold answer. fold vs. f_equal. rewrite <- Hls, transpose by assumption. unfold coords, scaled, weights, inv. fold us sg.
        assert (El : length us = length sg) by apply dec_lu. revert El. generalize us, sg. clear. intros l.
        induction l as [|u l IH]; intros [|s sg] El; try discriminate; cbn; [reflexivity|]. rewrite IH by (cbn in El; lia). f_equal.
        change (sgt s eps) with (Rltb eps s). unfold Rltb. destruct (Rlt_dec eps s).
        * clear. revert b. induction u as [|x u IH]; intros [|y b]; cbn; try (unfold Rdiv; ring). rewrite IH. unfold Rdiv. ring.
        * clear. revert b. induction u as [|x u IH]; intros [|y b]; cbn; try ring. rewrite IH. ring. }
      + exact dec_vs.
      + apply Forall_map, Forall_true. intros r. unfold row. cbn [m_cols]. rewrite map_length. exact Hls.
      + exact dec_lv.
      + rewrite map_length, seq_length. exact Hb.
  Qed.

  (** with as many large singular values as rows, every right side is hit *)
  Lemma full_rank b : k = m -> Forall (fun s => eps < s) sg -> length b = m -> act J (answer b) = b.
  Proof.
    intros Hk Hs Hb. rewrite act_answer.
    assert (Ek : kept eps sg (coords us b) = coords us b).
    { unfold kept. assert (El : length (coords us b) = length sg) by (rewrite coords_length; apply dec_lu). revert El. generalize (coords us b). revert Hs. generalize sg. clear.
      intros l H. induction H as [|s l Hs H IH]; intros [|y c] E; try discriminate; cbn; [reflexivity|]. rewrite IH by (cbn in E; lia). destruct (Rlt_dec eps s); [reflexivity|contradiction]. }
    rewrite Ek. pose proof (gauss_spec m us b) as H.
    destruct (gauss m us b) as [x|].
    - destruct H as (Hx & Hxb & _); [split; [rewrite <- Hk; auto|auto]|exact Hb|]. rewrite <- Hxb. rewrite coords_combine by (auto; rewrite Hx, <- Hk; auto). reflexivity.
    - destruct H as (z & Hz & (y & Hy & Hy0) & Hz0); [split; [rewrite <- Hk; auto|auto]|exact Hb|]. exfalso.
      assert (E : z = coords us (zeros m)) by (unfold zeros; rewrite <- Hz0; symmetry; apply coords_combine; auto; rewrite Hz, <- Hk; auto).
      rewrite E in Hy. unfold coords in Hy. apply elem_of_list_In, in_map_iff in Hy as (u & <- & _). apply Hy0, dot_zeros.
  Qed.
  (** the motion of the null space function is projected *)
  Lemma answer_act s : length s = n -> answer (act J s) = combine n vs (kept eps sg (coords vs s)).
  Proof.
    intros Hs. unfold answer. f_equal. rewrite (dec_act s Hs). rewrite coords_combine; [|exact dec_us|exact dec_ou|].
    2:{ apply eq_trans with k; [apply zip_length_2; [reflexivity|rewrite coords_length; auto]|symmetry; auto]. }
    generalize (coords vs s). unfold weights, kept. generalize sg. clear -Heps.
    intros l. induction l as [|x l IH]; intros [|y c]; cbn; try reflexivity. rewrite IH. f_equal. destruct (Rlt_dec eps x); [field; lra|reflexivity].
  Qed.
  Lemma null_bound b s : length b = m -> length s = n ->
    let v := ladd (answer b) (lsub s (answer (act J s))) in dot v v * (eps * eps) <= dot b b + dot s s * (eps * eps).
  Proof.
    intros Hb Hs v. set (p := answer (act J s)) in *. set (z := lsub s p) in *. set (w := kept eps sg (coords vs s)).
    assert (Lw : length w = k) by (apply zip_length_2; [reflexivity|rewrite coords_length; auto]).
    assert (Lp : length p = n) by apply answer_length. assert (Lx := answer_length b).
    assert (Lz : length z = n) by (unfold z, lsub; apply zip_length_2; assumption).
    assert (Ep : p = combine n vs w) by (apply answer_act; exact Hs).
    assert (Ewc : dot w (coords vs s) = dot w w).
    { unfold w, kept. generalize (coords vs s), sg. clear. intros c l. revert c. induction l as [|x l IH]; intros [|y c]; cbn; try reflexivity.
      rewrite IH. destruct (Rlt_dec eps x); ring. }
    assert (Epp : dot p p = dot w w) by (rewrite Ep; apply parseval; auto; rewrite Lw; auto).
    assert (Esp : dot s p = dot w w) by (rewrite dot_comm, Ep, (coords_dot n) by auto; exact Ewc).
    assert (Ezz : dot z z = dot s s - dot w w).
    { unfold z. change (lsub s p) with (diff s p). rewrite dot_diff by congruence. rewrite Epp, Esp. ring. }
    assert (Hxz : dot (answer b) z = 0).
    { assert (Es : dot (answer b) s = dot (answer b) p).
      { unfold answer at 1 2. rewrite !(coords_dot n) by (auto; congruence). rewrite Ep, coords_combine by (auto; rewrite Lw; auto).
        unfold w, weights, kept. generalize (coords vs s), (coords us b), sg. clear. intros c q l. revert c q.
        induction l as [|x l IH]; intros [|y c] [|u q]; cbn; try reflexivity. rewrite IH. destruct (Rlt_dec eps x); ring. }
      unfold z. rewrite lsub_add, dot_add, dot_scale by (rewrite lscale_length; congruence). lra. }
    assert (Evv : dot v v = dot (answer b) (answer b) + dot z z).
    { unfold v. rewrite dot_add by congruence. rewrite !(dot_comm (ladd _ _)), !dot_add by congruence. rewrite (dot_comm z (answer b)), Hxz. ring. }
    pose proof (answer_bound b Hb) as Hbd. pose proof (dot_nonneg w). rewrite Evv, Ezz. nra.
  Qed.
End Dec.

(** entries put in at the ignored joints do not change the length *)
Lemma spread_dot idx (x full : list R) : spread_to idx x full -> dot full full = dot x x.
Proof.
  intros [<- Hz]. unfold without. assert (G : forall l k, (forall j y, (k + j)%nat ∈ idx -> l !! j = Some y -> y = 0) -> dot l l = dot (without_from k idx l) (without_from k idx l)).
  { intros l. induction l as [|y l IH]; intros k H; cbn; [reflexivity|]. rewrite (IH (S k)).
    2:{ intros j z Hj Hl. apply (H (S j) z); [rewrite Nat.add_succ_r; exact Hj|exact Hl]. }
    case_decide as Hk; [|reflexivity]. rewrite (H 0%nat y); [ring|rewrite Nat.add_0_r; exact Hk|reflexivity]. }
  apply G. intros j y Hj Hl. cbn in Hj. rewrite (Hz j Hj) in Hl. injection Hl as <-. reflexivity.
Qed.
Lemma norm_le a b : dot a a <= dot b b -> norm a <= norm b.
Proof. intros H. unfold norm. apply sqrt_le_1; [apply dot_nonneg|apply dot_nonneg|exact H]. Qed.
Lemma norm_eq_dot a b : norm a = norm b -> dot a a = dot b b.
Proof. intros H. unfold norm in H. apply sqrt_inj in H; [exact H|apply dot_nonneg|apply dot_nonneg]. Qed.
Lemma norm_sqr a : norm a * norm a = dot a a.
Proof. unfold norm. apply sqrt_sqrt, dot_nonneg. Qed.
Lemma norm_bound a b e : 0 < e -> dot a a * (e * e) <= dot b b -> norm a <= norm b / e.
Proof.
  intros He H. apply Rmult_le_reg_r with e; [exact He|]. replace (norm b / e * e) with (norm b) by (field; lra).
  apply Rsqr_incr_0_var; [|apply R_sqrt.sqrt_pos]. unfold Rsqr. replace (norm a * e * (norm a * e)) with (norm a * norm a * (e * e)) by ring.
  rewrite !norm_sqr. exact H.
Qed.
