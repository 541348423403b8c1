(** * C76: the LU solve of the solver in floating point *)
From Coq Require Import String Reals ZArith Lra Lia Psatz Sorting.Sorted Floats.SpecFloat.
From Flocq Require Import Core IEEE754.BinarySingleNaN.
From stdpp Require Import gmap.
From Verif Require Import Scalar ScalarR ScalarF Geometry Joint Link Prog NodeM ChainM FuncsM IkM LuM RunLemmas
  SpecNode SpecGraph SpecChain GraphProofs SpecFK SpecGeom RGeom GeomProofs JacReal SpecReach ReachProofs IkProofs SpecIk StepProofs ChainProofs FKProofs LinArm
  SpecStep SpecLin SpecValues SpecFloatErr FloatErr AccProofs AccProofs2 SpecAcc PropAcc SpecJacAcc AccJac PropJacAcc PropStep PropLu
  LinAlgR LuProofs SpecLuAcc LuAcc.
Local Open Scope R_scope.

(** ** rows of the matrix and entries of the product *)
Lemma nth_combine n cols i : (i < n)%nat -> Forall (fun c => length c = n) cols -> forall x,
  nth i (combine n cols x) 0 = dot (map (fun c => nth i c 0) cols) x.
Proof.
  intros Hi. induction 1 as [|c cols Hc H IH]; intros [|y x]; cbn [combine map dot]; try apply nth_repeat0.
  rewrite (nth_zipw 0 (fun a s => a * y + s)) by (rewrite ?combine_length by exact H; lia). rewrite IH. reflexivity.
Qed.
Lemma all_le_nth e x n : length x = n -> all_le e x <-> forall i, (i < n)%nat -> Rabs (nth i x 0) <= e.
Proof.
  intros <-. split.
  - intros H i Hi. apply (proj1 (Forall_lookup _ _) H i). apply nth_lookup, Hi.
  - intros H. apply Forall_lookup. intros i y E. pose proof (lookup_lt_Some _ _ _ E) as Hi. rewrite (nth_lookup 0) in E by exact Hi. injection E as <-. apply H, Hi.
Qed.
Section Bridge.
  Context (prec emax : Z).
  Lemma list_cells x r : list_val prec emax x r -> forall i, rv (nth i x (S754_zero false)) = nth i r 0.
  Proof. induction 1 as [|y s x r Hy H IH]; intros [|i]; cbn; try reflexivity; [apply (val_rv _ _ _ _ Hy)|apply IH]. Qed.
  Lemma list_rv x r : list_val prec emax x r -> map rv x = r.
  Proof. induction 1 as [|y s x r Hy H IH]; cbn; [reflexivity|]. rewrite IH, (val_rv _ _ _ _ Hy). reflexivity. Qed.
  Lemma list_fin x r : list_val prec emax x r -> Forall (fin prec emax) x.
  Proof. induction 1; constructor; [eexists; eassumption|assumption]. Qed.
  Lemma fin_list x : Forall (fin prec emax) x -> list_val prec emax x (map rv x).
  Proof. induction 1; cbn; constructor; [apply fin_val; assumption|assumption]. Qed.
  Lemma list_bounded e x r : list_val prec emax x r -> all_le e r -> bounded prec emax e x.
  Proof.
    induction 1 as [|y s x r Hy H IH]; intros A; [constructor|]. apply Forall_cons in A as [A1 A2]. constructor; [|apply IH, A2].
    split; [eexists; exact Hy|]. rewrite (val_rv _ _ _ _ Hy). exact A1.
  Qed.
End Bridge.

Section C76.
  Context (prec emax : Z) (Hp : Prec_gt_0 prec) (Hm : Prec_lt_emax prec emax) (L : libm) (Hprec : (11 <= prec)%Z).
  Notation u := (unit_roundoff prec).
  Notation mu := (tiny emax).
  Local Instance FSj : Scalar spec_float := FScalar prec emax L.
  Context (n : nat) (m : mat spec_float) (J : mat R) (a be : R) (bf : list spec_float) (b : list R).
  Context (HJ : mat_val prec emax m J) (Hs : shaped J n n) (Ha : entries_le a J).
  Context (Hbf : list_val prec emax bf b) (Hb : length b = n) (Hbe : all_le be b) (Hfit : fits_lu prec emax n a be).

  Lemma bridge_square : m_rows m = n /\ squareB prec emax n a (m_cols m) /\ length bf = n /\ bounded prec emax be bf /\
    (forall i, map (cell prec emax L i) (m_cols m) = map (fun c => nth i c 0) (m_cols J)) /\ (forall i, cell prec emax L i bf = nth i b 0).
  Proof.
    destruct HJ as [Hr Hc]. destruct Hs as (H1 & H2 & H3). split; [congruence|]. split; [split; [split|]|].
    - rewrite (Forall2_length _ _ _ Hc). exact H2.
    - clear -Hc H3. induction Hc as [|x r c R Hx Hc IH]; [constructor|]. apply Forall_cons in H3 as [H3 H4]. constructor; [|apply IH, H4]. rewrite (Forall2_length _ _ _ Hx). exact H3.
    - clear -Hc Ha. unfold entries_le in Ha. induction Hc as [|x r c R Hx Hc IH]; [constructor|]. apply Forall_cons in Ha as [A1 A2]. constructor; [|apply IH, A2].
      apply (list_bounded prec emax a x r Hx A1).
    - split; [rewrite (Forall2_length _ _ _ Hbf); exact Hb|]. split; [apply (list_bounded prec emax be bf b Hbf Hbe)|]. split.
      + intros i. clear -Hc. induction Hc as [|x r c R Hx Hc IH]; [reflexivity|]. cbn [map]. rewrite IH. f_equal. apply (list_cells prec emax x r Hx).
      + intros i. apply (list_cells prec emax bf b Hbf).
  Qed.
  Lemma bridge_gauss : na_lu_solve m bf = gauss n (m_cols m) bf.
  Proof.
    destruct bridge_square as (Hr & [Hsq _] & Hl & _). unfold na_lu_solve. rewrite decide_True; [rewrite Hr; apply gauss_lu; [exact Hsq|exact Hl]|].
    rewrite Hr. destruct Hsq. auto.
  Qed.
  Lemma row_of x i : (i < n)%nat -> dot (map (cell prec emax L i) (m_cols m)) x = nth i (act J x) 0.
  Proof.
    intros Hi. destruct bridge_square as (_ & _ & _ & _ & E & _). rewrite E. destruct Hs as (H1 & H2 & H3). unfold act. rewrite H1. symmetry. apply nth_combine; assumption.
  Qed.
  Lemma act_len x : length (act J x) = n.
  Proof. destruct Hs as (H1 & H2 & H3). unfold act. rewrite H1. apply combine_length, H3. Qed.

  (** C76: the answer solves the system up to a small residual *)
  Theorem C76_residual xf x : na_lu_solve m bf = Some xf -> list_val prec emax xf x ->
    all_le (6 * 3 ^ n * u * (be + a * (norm1 x + mu))) (diff (act J x) b).
  Proof.
    intros E Hx. rewrite bridge_gauss in E. destruct bridge_square as (_ & Hsq & Hl & HB & Ec & Eb). destruct Hfit as (F1 & F2 & F3 & F4 & F5).
    pose proof (gauss_residual prec emax Hp Hm L Hprec n (m_cols m) bf xf a be Hsq Hl HB F1 F2 F3 F4 F5 E (list_fin _ _ _ _ Hx)) as G.
    rewrite (list_rv _ _ _ _ Hx) in G. apply (all_le_nth _ _ n); [unfold diff; rewrite zip_with_length, act_len, Hb; lia|]. intros i Hi.
    unfold diff. rewrite (nth_zipw 0 Rminus) by (rewrite ?act_len; lia). specialize (G i Hi). rewrite row_of, Eb in G by exact Hi. eapply Rle_trans; [exact G|].
    pose proof (u_le prec Hprec) as U. pose proof (mu_le prec emax Hm Hprec) as MU. pose proof (norm1_pos x) as N1.
    assert (0 <= a * (norm1 x + mu)) by (apply Rmult_le_pos; lra). unfold K. pose proof (pos_INR n). apply Rmult_le_compat_r; [lra|]. apply Rmult_le_compat_r; lra.
  Qed.
  (** C76: no answer only if the columns are nearly dependent *)
  Theorem C76_near_singular : na_lu_solve m bf = None ->
    exists y, length y = n /\ 0 < norm1 y /\ all_le (3 * 3 ^ n * u * a * norm1 y) (act J y).
  Proof.
    intros E. rewrite bridge_gauss in E. destruct bridge_square as (_ & Hsq & Hl & HB & Ec & Eb). destruct Hfit as (F1 & F2 & F3 & F4 & F5).
    destruct (gauss_none prec emax Hp Hm L Hprec n (m_cols m) bf a be Hsq Hl HB F1 F2 F3 F4 E) as (y & Ly & Py & Hy).
    exists y. split; [exact Ly|]. split; [exact Py|]. apply (all_le_nth _ _ n); [apply act_len|]. intros i Hi. specialize (Hy i Hi). rewrite row_of in Hy by exact Hi.
    eapply Rle_trans; [exact Hy|]. unfold N. pose proof (u_le prec Hprec) as U. pose proof (mu_le prec emax Hm Hprec) as MU.
    apply Rmult_le_compat_r; [lra|]. apply Rmult_le_compat_r; [lra|]. apply Rmult_le_compat_r; lra.
  Qed.
  (** C76: if the matrix is far from singular there is an answer, it is finite, and it is close
      to the exact solution *)
  Theorem C76_answer lam : expands lam J -> 30 * 3 ^ n * u * a <= lam -> fits_answer emax n a be lam ->
    exists xf x, na_lu_solve m bf = Some xf /\ list_val prec emax xf x /\
      forall xs, solves J xs b -> lam * norm1 (diff x xs) <= 12 * 3 ^ n * u * (be + a * (norm1 xs + mu)).
  Proof.
    intros Hex Hlam [Hl2 HH]. destruct bridge_square as (_ & Hsq & Hl & HB & Ec & Eb). destruct Hfit as (F1 & F2 & F3 & F4 & F5).
    pose proof (u_le prec Hprec) as U. pose proof (mu_le prec emax Hm Hprec) as MU. pose proof (pow3 n) as P3.
    set (H := 3 ^ n * be + 3 ^ n * a * (24 * (3 ^ n * be) / lam + mu)) in *.
    assert (UA : 0 < u * a) by (apply Rmult_lt_0_compat; lra).
    pose proof (bpow_gt_0 radix2 (emax - 2)) as PB. pose proof (Rmin_l 1 lam). pose proof (Rmin_r 1 lam).
    assert (G1 : bpow radix2 (emax - 2) * Rmin 1 lam <= bpow radix2 (emax - 2) * 1) by (apply Rmult_le_compat_l; lra).
    assert (G2 : bpow radix2 (emax - 2) * Rmin 1 lam <= bpow radix2 (emax - 2) * lam) by (apply Rmult_le_compat_l; lra).
    destruct (gauss_total prec emax Hp Hm L Hprec (lam / 2) H) with (n := n) (cols := m_cols m) (b := bf) (M := a) (be := be) (lam := lam) as (xf & E & Fx); try assumption; try lra.
    - intros y e Ly He Hy. apply Hex; [destruct Hs as (_ & H2 & _); congruence|exact He|]. apply (all_le_nth _ _ n); [apply act_len|]. intros i Hi. rewrite <- row_of by exact Hi. apply Hy, Hi.
    - unfold C. lra.
    - unfold H. right. field. lra.
    - exists xf, (map rv xf). rewrite bridge_gauss. pose proof (fin_list prec emax xf Fx) as Vx. split; [exact E|]. split; [exact Vx|]. intros xs [Lxs Exs].
      pose proof (C76_residual xf (map rv xf)) as R. rewrite bridge_gauss in R. specialize (R E Vx). set (x := map rv xf) in *.
      assert (Lx : length x = n) by (unfold x; rewrite map_length; apply (gauss_length prec emax L n (m_cols m) bf xf (proj1 Hsq) Hl E)).
      destruct Hs as (S1 & S2 & S3).
      assert (Ed : act J (diff x xs) = diff (act J x) b).
      { unfold act. change (diff x xs) with (lsub x xs). rewrite S1, combine_sub by (try exact S3; congruence). rewrite S1 in Exs. rewrite Exs. reflexivity. }
      assert (G : lam * norm1 (diff x xs) <= 6 * 3 ^ n * u * (be + a * (norm1 x + mu))).
      { apply Hex; [unfold diff; rewrite zip_with_length; lia| |rewrite Ed; exact R]. pose proof (norm1_pos x).
        apply Rmult_le_pos; [apply Rmult_le_pos; [lra|lra]|]. assert (0 <= a * (norm1 x + mu)) by (apply Rmult_le_pos; lra). lra. }
      assert (T : norm1 x <= norm1 (diff x xs) + norm1 xs).
      { assert (Lxs' : length x = length xs) by congruence. clear -Lxs'. revert xs Lxs'. induction x as [|y x IH]; intros [|z xs] E; try discriminate; cbn; [lra|].
        injection E as E. specialize (IH xs E). unfold diff in IH. pose proof (Rabs_triang (y - z) z) as Ht. replace (y - z + z) with y in Ht by ring. lra. }
      pose proof (norm1_pos (diff x xs)) as N1. assert (30 * 3 ^ n * u * a * norm1 (diff x xs) <= lam * norm1 (diff x xs)) by (apply Rmult_le_compat_r; lra).
      assert (0 <= 3 ^ n * (u * a) * norm1 (diff x xs)) by (apply Rmult_le_pos; [|lra]; apply Rmult_le_pos; lra).
      assert (3 ^ n * (u * a) * norm1 x <= 3 ^ n * (u * a) * (norm1 (diff x xs) + norm1 xs)) by (apply Rmult_le_compat_l; [apply Rmult_le_pos; lra|exact T]).
      assert (0 <= 3 ^ n * u * (be + a * (norm1 xs + mu))).
      { pose proof (norm1_pos xs). apply Rmult_le_pos; [apply Rmult_le_pos; lra|]. assert (0 <= a * (norm1 xs + mu)) by (apply Rmult_le_pos; lra). lra. }
      lra.
  Qed.
End C76.
Print Assumptions C76_residual.
Print Assumptions C76_near_singular.
Print Assumptions C76_answer.

(** ** an iteration of the float solver *)
Lemma Forall2_without {A B} (P : A -> B -> Prop) idx x y : Forall2 P x y -> forall k, Forall2 P (without_from k idx x) (without_from k idx y).
Proof. induction 1 as [|a b x y Hab H IH]; intros k; cbn; [constructor|]. destruct (decide (k ∈ idx)); [apply IH|constructor; [exact Hab|apply IH]]. Qed.
Lemma Forall2_flagged {A B} (P : A -> B -> Prop) ops x y : Forall2 P x y -> Forall2 P (flagged ops x) (flagged ops y).
Proof. intros H. revert ops. induction H as [|a b x y Hab H IH]; intros [|[] ops]; cbn; try constructor; try assumption; apply IH. Qed.
Lemma reduced_val prec emax ops idx cf cv : Forall2 (Forall2 (val prec emax)) cf cv -> mat_val prec emax (reduced ops idx cf) (reduced ops idx cv).
Proof.
  intros H. split; [reflexivity|]. unfold reduced. cbn [m_cols]. apply Forall2_fmap. eapply Forall2_impl; [apply Forall2_without, H|].
  intros x y. apply Forall2_flagged.
Qed.
(** C76: an iteration on a float arm with as many free joints as constrained coordinates
    either moves the joints by a list which solves the linear system up to the residual, or
    reports [InverseMatrixError], and then the columns of the reduced Jacobian are nearly
    dependent.  [cv] are the values of the entries of the float Jacobian. *)
Theorem C76_iteration prec emax (Hp : Prec_gt_0 prec) (Hm : Prec_lt_emax prec emax) (L : libm) (Hprec : (11 <= prec)%Z)
    (t : nat) ovf la (sv : solver spec_float) h nx arm target (c : constraints) idx cols s w cv b a be :
  let F := FScalar prec emax L in
  let n := count (flags c) in let u := unit_roundoff prec in
  chain_of h (c_nodes arm) arm -> all_live h (c_nodes arm) -> NoDup (c_movable arm) ->
  StronglySorted lt idx -> Forall (fun j => (j < c_dof arm)%nat) idx -> (n + length idx = c_dof arm)%nat ->
  (forall m b, lu_solve la m b = na_lu_solve m b) ->
  run t (end_transform arm) (quiet h nx) = Done w (quiet h nx) ->
  run t (jacobian arm) (quiet h nx) = Done (Mat 6 cols) s ->
  Forall2 (Forall2 (val prec emax)) cols cv ->
  list_val prec emax (flagged (flags c) (calc_pose_diff target w)) b ->
  let J := reduced (flags c) idx cv in
  entries_le a J -> all_le be b -> fits_lu prec emax n a be ->
  let iteration := run t (solve_one_loop_with_constraints ovf la sv arm target (flags c) idx) (quiet h nx) in
  (exists xf, moved_by t h nx arm target c (jacobian_multiplier sv) xf iteration /\
     forall x, list_val prec emax xf x -> all_le (6 * 3 ^ n * u * (be + a * (norm1 x + tiny emax))) (diff (act J x) b)) \/
  (iteration = Done (Err InverseMatrixError) s /\ (exists h', s = quiet h' nx /\ heaps same_but_caches h h') /\
     exists y, length y = n /\ 0 < norm1 y /\ all_le (3 * 3 ^ n * u * a * norm1 y) (act J y)).
Proof.
  intros F n u Hc Hl Hnd Hs Hi Hcnt Hla Hw HJ Hcv Hb J Ha Hbe Hfit iteration.
  destruct (jacobian_done t h nx arm (Mat 6 cols) s Hl HJ) as (h1 & -> & _ & _ & Hd & H6). cbn [m_cols] in Hd, H6.
  assert (HsJ : shaped J n n).
  { pose proof (reduced_shaped (flags c) idx cv (c_dof arm) eq_refl Hs Hi) as H. replace (c_dof arm - length idx)%nat with n in H by lia. apply H.
    - rewrite <- (Forall2_length _ _ _ Hcv). exact Hd.
    - clear -Hcv H6. induction Hcv as [|x r cc R Hx Hc IH]; [constructor|]. apply Forall_cons in H6 as [H1 H2]. constructor; [|apply IH, H2]. rewrite <- (Forall2_length _ _ _ Hx). exact H1. }
  assert (Lb : length b = n).
  { rewrite <- (Forall2_length _ _ _ Hb). unfold n. apply flagged_length. reflexivity. }
  destruct (C53_iteration t ovf la sv h nx arm target c idx cols h1 w Hc Hl Hnd Hs Hi Hw HJ) as [_ H]. fold n in H. specialize (H ltac:(lia)). destruct H as [Hsome Hnone].
  rewrite Hla in *. fold iteration in Hsome, Hnone. pose proof (reduced_val prec emax (flags c) idx cols cv Hcv) as HV. fold J in HV.
  destruct (na_lu_solve (reduced (flags c) idx cols) (flagged (flags c) (calc_pose_diff target w))) as [xf|] eqn:E.
  - left. exists xf. split; [apply Hsome; reflexivity|]. intros x Hx.
    exact (C76_residual prec emax Hp Hm L Hprec n _ J a be _ b HV HsJ Ha Hb Lb Hbe Hfit xf x E Hx).
  - right. destruct (Hnone eq_refl) as [E1 E2]. split; [exact E1|]. split; [eauto|].
    exact (C76_near_singular prec emax Hp Hm L Hprec n _ J a be _ b HV HsJ Ha Hb Lb Hbe Hfit E).
Qed.
Print Assumptions C76_iteration.

(** ** the float arm against the ideal one *)
(** entries which differ by at most [eps] *)
Definition near_cols (eps : R) (c1 c2 : list (list R)) : Prop := Forall2 (Forall2 (fun x y => Rabs (x - y) <= eps)) c1 c2.
Lemma near_dot eps r1 r2 : 0 <= eps -> Forall2 (fun x y => Rabs (x - y) <= eps) r1 r2 -> forall x, Rabs (dot r1 x - dot r2 x) <= eps * norm1 x.
Proof.
  intros He. induction 1 as [|p q r1 r2 Hpq H IH]; intros [|y x]; cbn [dot norm1]; rewrite ?Rminus_0_r, ?Rminus_diag_eq, ?Rabs_R0 by reflexivity; try lra.
  - pose proof (norm1_pos x). pose proof (Rabs_pos y). assert (0 <= eps * Rabs y) by (apply Rmult_le_pos; lra). assert (0 <= eps * norm1 x) by (apply Rmult_le_pos; lra). lra.
  - replace (p * y + dot r1 x - (q * y + dot r2 x)) with ((p - q) * y + (dot r1 x - dot r2 x)) by ring.
    eapply Rle_trans; [apply Rabs_triang|]. rewrite Rabs_mult. specialize (IH x).
    assert (Rabs (p - q) * Rabs y <= eps * Rabs y) by (apply Rmult_le_compat_r; [apply Rabs_pos|exact Hpq]). lra.
Qed.
Section Near.
  Context (n : nat) (J1 J2 : mat R) (eps : R) (He : 0 <= eps) (H1 : shaped J1 n n) (H2 : shaped J2 n n) (Hn : near_cols eps (m_cols J1) (m_cols J2)).
  Lemma near_act x i : (i < n)%nat -> Rabs (nth i (act J1 x) 0 - nth i (act J2 x) 0) <= eps * norm1 x.
  Proof.
    intros Hi. destruct H1 as (A1 & A2 & A3), H2 as (B1 & B2 & B3). unfold act. rewrite A1, B1, !nth_combine by assumption. apply near_dot; [exact He|].
    pose proof Hn as Hk. clear -Hk He. induction Hk as [|c1 c2 l1 l2 Hc H IH]; cbn [map]; [constructor|]. constructor; [|exact IH].
    clear -Hc He. revert i. induction Hc as [|x y l1 l2 Hxy H IH]; intros [|i]; cbn [nth]; try (rewrite Rminus_diag_eq, Rabs_R0 by reflexivity; exact He); [exact Hxy|apply IH].
  Qed.
  Lemma near_len (J : mat R) x : shaped J n n -> length (act J x) = n.
  Proof. intros (S1 & S2 & S3). unfold act. rewrite S1. apply combine_length, S3. Qed.
  Lemma near_all_le e x : all_le e (act J1 x) -> all_le (e + eps * norm1 x) (act J2 x).
  Proof.
    intros H. pose proof (proj1 (all_le_nth e (act J1 x) n (near_len J1 x H1)) H) as G. apply (all_le_nth _ _ n (near_len J2 x H2)). intros i Hi.
    specialize (G i Hi). pose proof (near_act x i Hi) as D. rewrite Rabs_minus_sym in D.
    pose proof (Rabs_triang (nth i (act J2 x) 0 - nth i (act J1 x) 0) (nth i (act J1 x) 0)) as T. rewrite Rplus_comm in T.
    replace (nth i (act J1 x) 0 + (nth i (act J2 x) 0 - nth i (act J1 x) 0)) with (nth i (act J2 x) 0) in T by ring. lra.
  Qed.
  Lemma near_expands lam : expands lam J2 -> expands (lam - eps) J1.
  Proof.
    intros H x e Lx H0 Hx. pose proof (norm1_pos x). assert (0 <= eps * norm1 x) by (apply Rmult_le_pos; lra).
    assert (lam * norm1 x <= e + eps * norm1 x); [|lra]. apply H; [|lra|apply near_all_le, Hx].
    destruct H1 as (_ & A2 & _), H2 as (_ & B2 & _). congruence.
  Qed.
  Lemma near_entries a : entries_le a J2 -> entries_le (a + eps) J1.
  Proof.
    unfold entries_le. pose proof Hn as Hk. clear -Hk. induction Hk as [|c1 c2 l1 l2 Hc H IH]; intros A; [constructor|]. apply Forall_cons in A as [A1 A2]. constructor; [|apply IH, A2].
    clear -Hc A1. unfold all_le in *. induction Hc as [|x y l1 l2 Hxy H IH]; [constructor|]. apply Forall_cons in A1 as [A1 A2]. constructor; [|apply IH, A2].
    pose proof (Rabs_triang (x - y) y) as T. replace (x - y + y) with x in T by ring. lra.
  Qed.
End Near.
Lemma norm1_diff x xs : length x = length xs -> norm1 x <= norm1 (diff x xs) + norm1 xs.
Proof.
  revert xs. induction x as [|y x IH]; intros [|z xs] E; try discriminate; cbn; [lra|].
  injection E as E. specialize (IH xs E). unfold diff in IH. pose proof (Rabs_triang (y - z) z) as Ht. replace (y - z + z) with y in Ht by ring. lra.
Qed.
(** the exact system [J2 xs = b] against the computed answer of the nearby float system *)
Lemma near_answer prec emax (Hp : Prec_gt_0 prec) (Hm : Prec_lt_emax prec emax) (L : libm) (Hprec : (11 <= prec)%Z) n m J1 J2 eps a be bf b lam :
  let u := unit_roundoff prec in
  mat_val prec emax m J1 -> shaped J1 n n -> shaped J2 n n -> 0 <= eps -> near_cols eps (m_cols J1) (m_cols J2) -> entries_le a J2 ->
  list_val prec emax bf b -> length b = n -> all_le be b -> fits_lu prec emax n (a + eps) be ->
  expands lam J2 -> 30 * 3 ^ n * u * (a + eps) + eps <= lam -> fits_answer emax n (a + eps) be (lam - eps) ->
  exists xf x, @na_lu_solve _ (FScalar prec emax L) m bf = Some xf /\ list_val prec emax xf x /\
    forall xs, solves J2 xs b ->
      (lam - eps) * norm1 (diff x xs) <= 12 * 3 ^ n * u * (be + (a + eps) * (norm1 xs + tiny emax)) + 2 * eps * norm1 xs.
Proof.
  intros u HV S1 S2 He Hn Ha Hb Lb Hbe Hfit Hex Hlam Hans.
  pose proof (near_entries J1 J2 eps Hn a Ha) as Ha1. pose proof (near_expands n J1 J2 eps He S1 S2 Hn lam Hex) as Hex1.
  destruct (C76_answer prec emax Hp Hm L Hprec n m J1 (a + eps) be bf b HV S1 Ha1 Hb Lb Hbe Hfit (lam - eps) Hex1 ltac:(fold u; lra) Hans) as (xf & x & E & Hx & _).
  exists xf, x. split; [exact E|]. split; [exact Hx|]. intros xs [Lxs Exs].
  pose proof (C76_residual prec emax Hp Hm L Hprec n m J1 (a + eps) be bf b HV S1 Ha1 Hb Lb Hbe Hfit xf x E Hx) as R. fold u in R.
  pose proof (u_le prec Hprec) as U. fold u in U. pose proof (mu_le prec emax Hm Hprec) as MU. destruct Hfit as (F1 & F2 & _). pose proof (pow3 n) as P3.
  pose proof (norm1_pos x) as Nx. pose proof (norm1_pos xs) as Nxs. pose proof (norm1_pos (diff x xs)) as Nd.
  assert (Lx : length x = n).
  { rewrite <- (Forall2_length _ _ _ Hx). destruct (bridge_square prec emax L n m J1 (a + eps) be bf b HV S1 Ha1 Hb Lb Hbe) as (Er & Sq & Lbf & _).
    rewrite (bridge_gauss prec emax L n m J1 (a + eps) be bf b HV S1 Ha1 Hb Lb Hbe) in E. apply (gauss_length prec emax L n (m_cols m) bf xf (proj1 Sq) Lbf E). }
  assert (Lxs' : length xs = n) by (destruct S2 as (_ & B2 & _); congruence).
  set (rho := 6 * 3 ^ n * u * (be + (a + eps) * (norm1 x + tiny emax))) in *.
  assert (Q : 0 <= (a + eps) * (norm1 x + tiny emax)) by (apply Rmult_le_pos; lra).
  assert (Hrho : 0 <= rho) by (unfold rho; apply Rmult_le_pos; [apply Rmult_le_pos; lra|lra]).
  assert (Hes : 0 <= eps * norm1 xs) by (apply Rmult_le_pos; lra).
  assert (G : (lam - eps) * norm1 (diff x xs) <= rho + eps * norm1 xs).
  { apply Hex1; [unfold diff; rewrite zip_with_length; destruct S1 as (_ & A2 & _); lia|lra|].
    assert (Ed : act J1 (diff x xs) = diff (act J1 x) (act J1 xs)).
    { destruct S1 as (A1 & A2 & A3). unfold act. change (diff x xs) with (lsub x xs). rewrite A1, combine_sub by (try exact A3; congruence). reflexivity. }
    rewrite Ed. pose proof (near_len n J1 x S1) as L1. pose proof (near_len n J1 xs S1) as L2.
    assert (L3 : length (diff (act J1 x) (act J1 xs)) = n) by (unfold diff; rewrite zip_with_length; lia).
    assert (L4 : length (diff (act J1 x) b) = n) by (unfold diff; rewrite zip_with_length; lia).
    apply (all_le_nth _ _ n L3). intros i Hi. pose proof (proj1 (all_le_nth _ _ n L4) R i Hi) as R1. pose proof (near_act n J1 J2 eps He S1 S2 Hn xs i Hi) as R2.
    unfold act in R2 at 2. rewrite Exs in R2. unfold diff in *. rewrite (nth_zipw 0 Rminus) in R1 |- * by lia.
    replace (nth i (act J1 x) 0 - nth i (act J1 xs) 0) with ((nth i (act J1 x) 0 - nth i b 0) + - (nth i (act J1 xs) 0 - nth i b 0)) by ring.
    eapply Rle_trans; [apply Rabs_triang|]. rewrite Rabs_Ropp. lra. }
  pose proof (norm1_diff x xs ltac:(congruence)) as T.
  assert (UA : 0 <= 3 ^ n * (u * (a + eps))) by (apply Rmult_le_pos; [lra|apply Rmult_le_pos; lra]).
  assert (3 ^ n * (u * (a + eps)) * norm1 x <= 3 ^ n * (u * (a + eps)) * (norm1 (diff x xs) + norm1 xs)) by (apply Rmult_le_compat_l; [exact UA|exact T]).
  assert (30 * 3 ^ n * u * (a + eps) * norm1 (diff x xs) <= (lam - eps) * norm1 (diff x xs)) by (apply Rmult_le_compat_r; lra).
  assert (0 <= 3 ^ n * (u * (a + eps)) * norm1 (diff x xs)) by (apply Rmult_le_pos; lra).
  assert (0 <= 3 ^ n * u * (be + (a + eps) * (norm1 xs + tiny emax))).
  { apply Rmult_le_pos; [apply Rmult_le_pos; lra|]. assert (0 <= (a + eps) * (norm1 xs + tiny emax)) by (apply Rmult_le_pos; lra). lra. }
  unfold rho in G. lra.
Qed.
Lemma growth_one prec a d : 0 <= a -> 0 <= d -> 1 <= growth prec a d.
Proof.
  intros Ha Hd. assert (0 <= unit_roundoff prec) by (unfold unit_roundoff; apply bpow_ge_0). unfold growth.
  assert (A : 1 <= (1 + a) ^ 2) by (apply pow_R1_Rle; lra). assert (B : 1 <= (1 + d) ^ 2) by (apply pow_R1_Rle; lra).
  assert (D : 1 <= (1 + 32 * unit_roundoff prec) ^ 3) by (apply pow_R1_Rle; lra).
  assert (1 * 1 <= (1 + a) ^ 2 * (1 + d) ^ 2) by (apply Rmult_le_compat; lra).
  replace 1 with (1 * 1) by ring. apply Rmult_le_compat; lra.
Qed.
(** C76: let the float arm stand for an ideal arm as in C60 and C72, with as many free joints
    as constrained coordinates, and let the reduced Jacobian of the ideal arm be far from
    singular.  Then an iteration of the float solver with the LU solve does not fail, and the
    motion it applies is finite and close to the solution of the ideal linear system. *)
Theorem C76_step prec emax (Hp : Prec_gt_0 prec) (Hm : Prec_lt_emax prec emax) (L : libm) al d
    (t : nat) ovf la (sv : solver spec_float) (hf : gmap nat (node spec_float)) (hr : gmap nat (node R)) nx arm e l js
    target (c : constraints) idx cr s' w b a be lam :
  let F := FScalar prec emax L in
  let n := count (flags c) in let u := unit_roundoff prec in
  let eps := (growth prec al d ^ (16 * S (length js)) - 1) * (2 * reach emax js + 1) in
  (11 <= prec)%Z -> 0 <= al -> 0 <= d -> libm_within prec emax d L -> stand_for prec emax al hf hr ->
  path_up hr e l -> chain_of hr (rev l) arm -> joints_of hr (rev l) js -> fits_jacobian prec emax al d js ->
  StronglySorted lt idx -> Forall (fun j => (j < c_dof arm)%nat) idx -> (n + length idx = c_dof arm)%nat ->
  (forall m b, lu_solve la m b = na_lu_solve m b) ->
  run t (end_transform arm) (quiet hf nx) = Done w (quiet hf nx) ->
  list_val prec emax (flagged (flags c) (calc_pose_diff target w)) b -> all_le be b ->
  run t (jacobian arm) (quiet hr nx) = Done (Mat 6 cr) s' ->
  let J := reduced (flags c) idx cr in
  entries_le a J -> expands lam J -> fits_lu prec emax n (a + eps) be ->
  30 * 3 ^ n * u * (a + eps) + eps <= lam -> fits_answer emax n (a + eps) be (lam - eps) ->
  exists xf x,
    moved_by t hf nx arm target c (jacobian_multiplier sv) xf
      (run t (solve_one_loop_with_constraints ovf la sv arm target (flags c) idx) (quiet hf nx)) /\
    list_val prec emax xf x /\
    forall xs, solves J xs b ->
      (lam - eps) * norm1 (diff x xs) <= 12 * 3 ^ n * u * (be + (a + eps) * (norm1 xs + tiny emax)) + 2 * eps * norm1 xs.
Proof.
  intros F n u eps Hprec Hal Hd HL Hst Hpath Hch Hjs Hfj Hs Hi Hcnt Hla Hw Hb Hbe HJr J Ha Hex Hfit Hlam Hans.
  destruct (C72_columns prec emax Hp Hm L al d t hf hr nx arm e l js Hprec Hal Hd HL Hst Hpath Hch Hjs Hfj)
    as (cf & cr' & s & s2 & R1 & R2 & L1 & L2 & HC).
  rewrite HJr in R2. injection R2 as <- <-. clear HJr.
  pose proof (growth_one prec al d Hal Hd) as G1.
  assert (R0 : 0 <= reach emax js) by (rewrite <- (slack_reach emax js); apply (slack_pos prec emax Hm Hprec)).
  pose proof (pow_ge_1 (growth prec al d) (16 * S (length js)) G1) as P16.
  assert (E0 : 0 <= eps) by (unfold eps; apply Rmult_le_pos; lra).
  assert (P8 : growth prec al d ^ (8 * S (length js)) - 1 <= eps).
  { pose proof (pow_mono (growth prec al d) (8 * S (length js)) (16 * S (length js)) G1 ltac:(lia)) as H8. unfold eps.
    apply Rle_trans with ((growth prec al d ^ (16 * S (length js)) - 1) * 1); [lra|]. apply Rmult_le_compat_l; lra. }
  assert (HV : exists cv, Forall2 (Forall2 (val prec emax)) cf cv /\ near_cols eps cv cr /\ Forall (fun k => length k = 6%nat) cv /\ Forall (fun k => length k = 6%nat) cr).
  { assert (Hlen : length cf = length cr) by congruence. clear -HC P8 Hlen. revert cr HC Hlen. induction cf as [|x cf IH]; intros [|y cr] HC Hlen; try discriminate.
    - exists []. repeat split; constructor.
    - destruct (IH cr) as (cv & V1 & V2 & V3 & V4); [intros i x' w Hx Hw; apply (HC (S i) x' w); assumption|injection Hlen; auto|].
      destruct (HC 0%nat x y eq_refl eq_refl) as (v & o & v0 & o0 & Hv & -> & [D1 D2]). exists ([vx v; vy v; vz v; vx o; vy o; vz o] :: cv).
      split; [constructor; assumption|]. split; [|split; constructor; auto]. constructor; [|exact V2]. fold eps in D1.
      pose proof (comp_len (minus v v0)) as (C1 & C2 & C3). pose proof (comp_len (minus o o0)) as (C4 & C5 & C6). unfold dist in D1, D2. cbn [minus vx vy vz] in *.
      constructor; [|constructor; [|constructor; [|constructor; [|constructor; [|constructor; [|constructor]]]]]]; lra. }
  destruct HV as (cv & V1 & V2 & V3 & V4).
  assert (En : c_nodes arm = rev l) by (destruct Hch as (-> & _); reflexivity).
  assert (Hlive : all_live hf (c_nodes arm)).
  { rewrite En. apply (stand_all_live prec emax al hf hr Hst). apply all_live_rev. eapply path_all_live; eauto. }
  assert (Hchf : chain_of hf (c_nodes arm) arm) by (rewrite En; apply (stand_chain prec emax al hf hr Hst); exact Hch).
  assert (Hnd : NoDup (c_movable arm)).
  { destruct Hch as (_ & Hmv & _). rewrite Hmv. apply NoDup_ListNoDup, List.NoDup_filter, NoDup_rev, NoDup_ListNoDup. eapply path_up_nodup; eauto. }
  assert (Lcv : length cv = c_dof arm) by (rewrite <- (Forall2_length _ _ _ V1); exact L1).
  set (J1 := reduced (flags c) idx cv).
  assert (S1 : shaped J1 n n).
  { pose proof (reduced_shaped (flags c) idx cv (c_dof arm) eq_refl Hs Hi Lcv V3) as H. replace (c_dof arm - length idx)%nat with n in H by lia. exact H. }
  assert (S2 : shaped J n n).
  { pose proof (reduced_shaped (flags c) idx cr (c_dof arm) eq_refl Hs Hi L2 V4) as H. replace (c_dof arm - length idx)%nat with n in H by lia. exact H. }
  assert (Hn : near_cols eps (m_cols J1) (m_cols J)).
  { unfold near_cols, J1, J, reduced. cbn [m_cols]. apply Forall2_fmap. eapply Forall2_impl; [apply Forall2_without, V2|]. intros x y. apply Forall2_flagged. }
  assert (Lb : length b = n).
  { rewrite <- (Forall2_length _ _ _ Hb). unfold n. apply flagged_length. reflexivity. }
  destruct (near_answer prec emax Hp Hm L Hprec n (reduced (flags c) idx cf) J1 J eps a be _ b lam (reduced_val prec emax (flags c) idx cf cv V1) S1 S2 E0 Hn Ha Hb Lb Hbe Hfit Hex Hlam Hans)
    as (xf & x & E & Hx & Hacc).
  exists xf, x. split; [|split; [exact Hx|exact Hacc]].
  destruct (jacobian_done t hf nx arm (Mat 6 cf) s Hlive R1) as (h1 & -> & _).
  destruct (C53_iteration t ovf la sv hf nx arm target c idx cf h1 w Hchf Hlive Hnd Hs Hi Hw R1) as [_ H]. fold n in H. specialize (H ltac:(lia)). destruct H as [Hsome _].
  apply Hsome. rewrite Hla. exact E.
Qed.
Print Assumptions C76_step.

(** ** cases *)
Lemma u53 : unit_roundoff 53 = / 9007199254740992.
Proof. reflexivity. Qed.
Lemma tiny64 : 0 < tiny 1024 <= / 1000000000.
Proof. unfold tiny. split; [apply bpow_gt_0|]. apply Rle_trans with (bpow radix2 (-30)); [apply bpow_le; lia|]. change (bpow radix2 (-30)) with (/ 1073741824). lra. Qed.
Lemma big64 : 1073741824 <= bpow radix2 (1024 - 2).
Proof. change 1073741824 with (bpow radix2 30). apply bpow_le. lia. Qed.
(** the system 3 x + y = 1, x + 2 y = 1 in f64: its answer is (1/5, 2/5) to 13 digits *)
Definition five : mat R := Mat 2 [[3; 1]; [1; 2]].
Lemma five_expands : expands (/ 2) five.
Proof.
  intros [|x [|y [|z l]]] e E He H; try discriminate. cbn in H. apply Forall_cons in H as [H1 H]. apply Forall_cons in H as [H2 _]. cbn [norm1].
  apply Rabs_le_inv in H1, H2. assert (Rabs x <= 3 / 5 * e) by (apply Rabs_le; lra). assert (Rabs y <= 4 / 5 * e) by (apply Rabs_le; lra). lra.
Qed.
Example C76_answer_case : exists xf x,
  @na_lu_solve _ (F64 L64) (Mat 2 [[z64 3; z64 1]; [z64 1; z64 2]]) [z64 1; z64 1] = Some xf /\ list_val 53 1024 xf x /\
  norm1 (diff x [1 / 5; 2 / 5]) < / 10000000000000.
Proof.
  destruct z64_ok as (V0 & V1 & V2 & V3). pose proof u53 as U. pose proof tiny64 as T. pose proof big64 as B.
  destruct (C76_answer 53 1024 f64_ok f64_lt L64 ltac:(lia) 2 (Mat 2 [[z64 3; z64 1]; [z64 1; z64 2]]) five 3 1 [z64 1; z64 1] [1; 1]) with (lam := / 2)
    as (xf & x & E & Hx & Hacc).
  - split; [reflexivity|]. constructor; [|constructor; [|constructor]]; (constructor; [assumption|constructor; [assumption|constructor]]).
  - split; [reflexivity|]. split; [reflexivity|]. repeat constructor.
  - unfold entries_le, all_le, five. cbn [m_cols]. repeat (apply Forall_cons; split); try apply Forall_nil; try exact I; apply Rabs_le; lra.
  - constructor; [assumption|constructor; [assumption|constructor]].
  - reflexivity.
  - unfold all_le. repeat (apply Forall_cons; split); try apply Forall_nil; try exact I; apply Rabs_le; lra.
  - unfold fits_lu. rewrite U. cbn [INR]. repeat split; lra.
  - exact five_expands.
  - rewrite U. lra.
  - unfold fits_answer. split; [lra|]. rewrite Rmin_right by lra. replace (24 * (3 ^ 2 * 1) / / 2) with 432 by field. lra.
  - exists xf, x. split; [exact E|]. split; [exact Hx|].
    assert (S : solves five [1 / 5; 2 / 5] [1; 1]).
    { split; [reflexivity|]. cbn. repeat (apply (f_equal2 (@cons R)); [field|]). reflexivity. }
    specialize (Hacc _ S). rewrite U in Hacc. cbn [norm1] in Hacc. rewrite !Rabs_pos_eq in Hacc by lra. lra.
Qed.
(** equal columns: no answer *)
Example C76_near_singular_case : @na_lu_solve _ (F64 L64) (Mat 2 [[z64 1; z64 1]; [z64 1; z64 1]]) [z64 1; z64 2] = None /\
  mat_val 53 1024 (Mat 2 [[z64 1; z64 1]; [z64 1; z64 1]]) (Mat 2 [[1; 1]; [1; 1]]) /\ fits_lu 53 1024 2 1 2.
Proof.
  destruct z64_ok as (V0 & V1 & V2 & V3). pose proof u53 as U. pose proof tiny64 as T. pose proof big64 as B. split; [|split].
  - lazy. reflexivity.
  - split; [reflexivity|]. constructor; [|constructor; [|constructor]]; (constructor; [assumption|constructor; [assumption|constructor]]).
  - unfold fits_lu. rewrite U. cbn [INR]. repeat split; lra.
Qed.
(** two slides, along x and along y, to bring the end to x = 3, y = 3 *)
Definition xy {T} `{Scalar T} (z1 z2 : T) : list (joint T) :=
  [jt "x" (Linear (V3 sone szero szero)) (V3 szero szero z1) z1; jt "y" (Linear (V3 szero sone szero)) (V3 szero szero szero) z2].
Definition xy_heap {T} `{Scalar T} (z1 z2 : T) : gmap nat (node T) :=
  match xy z1 z2 with
  | [a; b] => <[0%nat := of_joint a None [1%nat]]> (<[1%nat := of_joint b (Some 0%nat) []]> ∅)
  | _ => ∅
  end.
Definition xy_float := @xy_heap _ (F64 L64) (z64 1) (z64 2).
Definition corner : iso spec_float := Iso (V3 (z64 3) (z64 3) (z64 0)) (@q1 _ (F64 L64)).
Lemma xy_float_end (t nx : nat) : exists w, run t (@end_transform _ (F64 L64) table_chain) (quiet xy_float nx) = Done w (quiet xy_float nx) /\
  flagged (flags plane) (@calc_pose_diff _ (F64 L64) corner w) = [z64 2; z64 1].
Proof.
  eexists. split.
  - unfold end_transform. apply run_end_fold. apply (joints_local xy_float [0%nat; 1%nat] (@xy _ (F64 L64) (z64 1) (z64 2))).
    repeat (constructor; [eexists; split; reflexivity|]). constructor.
  - vm_compute. reflexivity.
Qed.
Lemma xy_arm : arm_ok table_chain 1%nat [1%nat; 0%nat] (xy_heap 1 2).
Proof.
  split; [|split].
  - eapply path_step; [|apply path_root].
    + split; [eexists; split; reflexivity|eexists; reflexivity].
    + split; [eexists; reflexivity|]. intros p [(n & Hn & E) _]. apply Some_inj in Hn as <-. discriminate.
  - split; [reflexivity|]. split; reflexivity.
  - intros a n Ha Hn. assert (a = 1 \/ a = 0)%nat as [-> | ->] by set_solver; apply Some_inj in Hn as <-; (split; [split; [|exact I]|reflexivity]); exact unit_q1.
Qed.
Lemma xy_run t nx : exists s, run t (jacobian table_chain) (quiet (xy_heap 1 2) nx) = Done (Mat 6 [[1; 0; 0; 0; 0; 0]; [0; 1; 0; 0; 0; 0]]) s.
Proof.
  destruct (arm_jacobian table_chain 1%nat [1%nat; 0%nat] t (xy_heap 1 2) nx (xy 1 2) xy_arm) as [_ [h1 E]].
  { repeat (constructor; [eexists; split; reflexivity|]). constructor. }
  exists (quiet h1 nx). rewrite E.
  assert (D : dirs iso1 (xy 1 2) = [V3 1 0 0; V3 0 1 0]); [|rewrite D; reflexivity].
  unfold xy, jt. cbn [dirs j_type]. unfold local_transform. cbn [j_type j_origin j_position joint_transform].
  repeat (apply (f_equal2 cons); [gv; ring|]). reflexivity.
Qed.
Lemma xy_stands : stand_for 53 1024 (4 * unit_roundoff 53) xy_float (xy_heap 1 2).
Proof.
  destruct z64_ok as (V0 & V1 & V2 & V3'). pose proof (u_small 53 ltac:(lia)) as [U0 _]. set (d := 4 * unit_roundoff 53). assert (Hd : 0 <= d) by (unfold d; lra).
  assert (Hq : near_quat 53 1024 d (@q1 _ (F64 L64)) q1).
  { split; [apply unit_q1|]. exists q1. rewrite qdist_self. split; [|exact Hd]. hnf. cbn [q1 qi qj qk qw]. auto. }
  assert (Va : forall x y z (a b c : R), val 53 1024 x a -> val 53 1024 y b -> val 53 1024 z c -> unit_axis (V3 a b c) -> near_axis 53 1024 d (V3 x y z) (V3 a b c)).
  { intros x y z a b c Hx Hy Hz Hu. split; [exact Hu|]. exists (V3 a b c). rewrite dist_self. split; [|exact Hd]. hnf. cbn. auto. }
  intros a. unfold xy_float, xy_heap, xy. destruct a as [|[|a]].
  - split; [reflexivity|]. split; [apply Va; try assumption; unfold unit_axis; cbn; ring|]. split; [exact V1|]. split; [hnf; cbn; auto|exact Hq].
  - split; [reflexivity|]. split; [apply Va; try assumption; unfold unit_axis; cbn; ring|]. split; [exact V2|]. split; [hnf; cbn; auto|exact Hq].
  - rewrite !lookup_insert_ne, !lookup_empty by lia. exact I.
Qed.
(** an iteration on the float slides moves them by 2 and by 1, to 9 digits *)
Example C76_step_case (t nx : nat) ovf svd pinv sv : let F := F64 L64 in
  exists xf x,
    moved_by t xy_float nx table_chain corner plane (jacobian_multiplier sv) xf
      (run t (solve_one_loop_with_constraints ovf (Linalg na_lu_solve svd pinv) sv table_chain corner (flags plane) []) (quiet xy_float nx)) /\
    list_val 53 1024 xf x /\ norm1 (diff x [2; 1]) < / 1000000000.
Proof.
  intros F. destruct z64_ok as (V0 & V1 & V2 & V3). pose proof u53 as U. pose proof tiny64 as T. pose proof big64 as B.
  destruct (xy_float_end t nx) as (w & Hw & Herr). destruct (xy_run t nx) as [s' HJ]. destruct xy_arm as (Hpath & Hch & _).
  assert (Hjs : joints_of (xy_heap 1 2) (rev [1%nat; 0%nat]) (xy 1 2)) by (repeat (constructor; [eexists; split; reflexivity|]); constructor).
  assert (Ht : total (map span (xy 1 2)) = 4).
  { unfold xy. cbn [map]. rewrite !total_cons. unfold span, extension, jt. cbn [j_type j_origin j_position tr].
    change (@szero R RScalar) with 0. unfold len, inner. cbn [vx vy vz].
    replace (0 * 0 + 0 * 0 + 1 * 1) with (1 * 1) by ring. replace (0 * 0 + 0 * 0 + 0 * 0) with (0 * 0) by ring.
    rewrite !sqrt_square by lra. rewrite (Rabs_pos_eq 1), (Rabs_pos_eq 2) by lra. cbn. ring. }
  destruct (jacobian_numbers 53 1024 f64_ok f64_lt (xy 1 2) ltac:(lia)) as [Hf _].
  { cbn [xy length INR]. rewrite U. lra. }
  { rewrite Ht. change 4 with (bpow radix2 2). apply bpow_le. lia. }
  set (u := unit_roundoff 53) in *. set (G := growth 53 (4 * u) (4 * u)).
  assert (He : 0 <= (G ^ (16 * S (length (xy 1 2))) - 1) * (2 * reach 1024 (xy 1 2) + 1) <= / 50000000000).
  { pose proof (growth_small 53 ltac:(lia)) as [G0 G1]. fold u in G0, G1. fold G in G0, G1. cbn [xy length].
    assert (P : 1 <= G ^ (16 * 3) <= 1 + 256 * 16 * 3 * u).
    { split; [apply pow_ge_1; lra|]. eapply Rle_trans; [apply (pow_incr _ (1 + 128 * u)); lra|]. eapply Rle_trans; [apply pow_bound; [lra|]|].
      - replace (INR (16 * 3)) with 48 by (cbn; ring). lra.
      - replace (INR (16 * 3)) with 48 by (cbn; ring). lra. }
    assert (R1 : 4 <= reach 1024 (xy 1 2) <= 5). { unfold reach, lost. rewrite Ht. cbn [xy length INR]. lra. }
    split; [apply Rmult_le_pos; lra|]. apply Rle_trans with ((256 * 16 * 3 * u) * 11); [apply Rmult_le_compat; lra|]. lra. }
  set (eps := (G ^ (16 * S (length (xy 1 2))) - 1) * (2 * reach 1024 (xy 1 2) + 1)) in He.
  destruct (C76_step 53 1024 f64_ok f64_lt L64 (4 * u) (4 * u) t ovf (Linalg na_lu_solve svd pinv) sv xy_float (xy_heap 1 2) nx table_chain 1%nat [1%nat; 0%nat] (xy 1 2)
    corner plane [] [[1; 0; 0; 0; 0; 0]; [0; 1; 0; 0; 0; 0]] s' w [2; 1] 1 2 (/ 2)) as (xf & x & Hmv & Hx & Hacc);
    try assumption; try reflexivity; try lra; try (constructor; fail).
  - lia.
  - intros y r Hy. destruct (good_libm_ok 53 1024 f64_ok f64_lt ltac:(lia) y r Hy) as [(s & Hs & Es) (k & Hk & Ek)].
    fold u in Es, Ek. split; [exists s|exists k]; (split; [assumption|lra]).
  - exact xy_stands.
  - refine (eq_ind_r (fun z => list_val 53 1024 z [2; 1]) _ Herr). constructor; [assumption|constructor; [assumption|constructor]].
  - unfold all_le. repeat (apply Forall_cons; split); try apply Forall_nil; try exact I; apply Rabs_le; lra.
  - unfold entries_le, all_le. cbn. repeat (apply Forall_cons; split); try apply Forall_nil; try exact I; apply Rabs_le; lra.
  - intros [|x1 [|x2 [|x3 x]]] e E He0 H; try discriminate. cbn in H. apply Forall_cons in H as [H1 H]. apply Forall_cons in H as [H2 _]. cbn [norm1].
    apply Rabs_le_inv in H1, H2. assert (Rabs x1 <= e) by (apply Rabs_le; lra). assert (Rabs x2 <= e) by (apply Rabs_le; lra). lra.
  - unfold fits_lu. fold u G eps. change (count (flags plane)) with 2%nat. cbn [INR]. repeat split; lra.
  - fold u G eps. change (count (flags plane)) with 2%nat. rewrite U. lra.
  - unfold fits_answer. fold u G eps. change (count (flags plane)) with 2%nat. split; [lra|]. rewrite Rmin_right by lra.
    assert (24 * (3 ^ 2 * 2) / (/ 2 - eps) <= 24 * (3 ^ 2 * 2) * 3).
    { unfold Rdiv. apply Rmult_le_compat_l; [lra|]. apply Rle_trans with (/ / 3); [apply Rinv_le_contravar; lra|lra]. }
    assert (0 <= 24 * (3 ^ 2 * 2) / (/ 2 - eps)) by (unfold Rdiv; apply Rmult_le_pos; [lra|left; apply Rinv_0_lt_compat; lra]).
    assert (3 ^ 2 * (1 + eps) * (24 * (3 ^ 2 * 2) / (/ 2 - eps) + tiny 1024) <= 3 ^ 2 * 2 * (24 * (3 ^ 2 * 2) * 3 + 1)) by (apply Rmult_le_compat; lra).
    assert (1073741824 * / 3 <= bpow radix2 (1024 - 2) * (/ 2 - eps)) by (apply Rmult_le_compat; lra). lra.
  - exists xf, x. split; [exact Hmv|]. split; [exact Hx|].
    assert (S : solves (reduced (flags plane) [] [[1; 0; 0; 0; 0; 0]; [0; 1; 0; 0; 0; 0]]) [2; 1] [2; 1]).
    { split; [reflexivity|]. cbn. repeat (apply (f_equal2 (@cons R)); [ring|]). reflexivity. }
    specialize (Hacc _ S). fold u G eps in Hacc. change (count (flags plane)) with 2%nat in Hacc. cbn [norm1] in Hacc. rewrite (Rabs_pos_eq 2), (Rabs_pos_eq 1) in Hacc by lra.
    pose proof (norm1_pos (diff x [2; 1])) as N. assert (/ 3 * norm1 (diff x [2; 1]) <= (/ 2 - eps) * norm1 (diff x [2; 1])) by (apply Rmult_le_compat_r; lra).
    assert (K : (1 + eps) * (2 + (1 + 0) + tiny 1024) <= 2 * 4) by (apply Rmult_le_compat; lra).
    assert (12 * 3 ^ 2 * u * (2 + (1 + eps) * (2 + (1 + 0) + tiny 1024)) <= 12 * 3 ^ 2 * u * (2 + 8)) by (apply Rmult_le_compat_l; lra). lra.
Qed.
