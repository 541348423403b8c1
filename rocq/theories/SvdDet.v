(** * The solver runs the same program with every decomposition *)
From Coq Require Import String Reals Lra Lia NArith FunctionalExtensionality.
From stdpp Require Import gmap.
From Verif Require Import Scalar ScalarR Geometry Joint Link Prog NodeM ChainM FuncsM IkM SpecNode SpecIk SpecStep SvdM SpecLin LinAlgR LuM LuProofs SvdProofs SvdExist SvdUniq.
Local Open Scope R_scope.

(** every result of the program satisfies [P] *)
Fixpoint leaves {T A} (P : A -> Prop) (p : prog T A) : Prop :=
  match p with
  | Ret a => P a
  | Lock _ k | Unlock _ k | Put _ _ k => leaves P k
  | Get _ k => forall n, leaves P (k n)
  | New _ k => forall a, leaves P (k a)
  | Upgrade _ k => forall b, leaves P (k b)
  | Panic _ | NoFuel => True
  end.
Lemma leaves_bind {T A B} (P : A -> Prop) (Q : B -> Prop) (p : prog T A) (k : A -> prog T B) :
  leaves P p -> (forall a, P a -> leaves Q (k a)) -> leaves Q (bind p k).
Proof. intros Hp Hk. induction p; cbn in *; auto. Qed.
Lemma leaves_true {T A} (p : prog T A) : leaves (fun _ => True) p.
Proof. induction p; cbn; auto. Qed.
Lemma leaves_any {T A B} (Q : B -> Prop) (p : prog T A) (k : A -> prog T B) : (forall a, leaves Q (k a)) -> leaves Q (bind p k).
Proof. intros H. eapply leaves_bind; [apply leaves_true|]. auto. Qed.
Lemma bind_same {T A B} (P : A -> Prop) (p : prog T A) (k k' : A -> prog T B) :
  leaves P p -> (forall a, P a -> k a = k' a) -> bind p k = bind p k'.
Proof. intros Hp Hk. induction p; cbn in *; auto; f_equal; auto; apply functional_extensionality; intros; auto. Qed.
Lemma bind_any {T A B} (p : prog T A) (k k' : A -> prog T B) : (forall a, k a = k' a) -> bind p k = bind p k'.
Proof. intros H. apply (bind_same (fun _ => True)); [apply leaves_true|auto]. Qed.
Lemma leaves_mapM {T A B} (P : B -> Prop) (f : A -> prog T B) l : (forall a, leaves P (f a)) -> leaves (fun ys => Forall P ys) (mapM f l).
Proof.
  intros H. induction l as [|x l IH]; cbn [mapM]; [constructor|]. eapply leaves_bind; [apply H|]. intros y Hy. eapply leaves_bind; [apply IH|]. intros ys Hys. constructor; assumption.
Qed.

Lemma leaves_run {T A} (P : A -> Prop) t (p : prog T A) : forall s a s', leaves P p -> run t p s = Done a s' -> P a.
Proof.
  induction p; intros s x s' Hp E; cbn in *; try discriminate.
  all: repeat (case_match; try discriminate); try (injection E as <- _; exact Hp); eauto.
Qed.

Section Det.
  Context {T : Type} `{Sc : Scalar T}.
  (** the columns have as many entries as the matrix has rows *)
  Definition tidy (m : mat T) : Prop := Forall (fun c => length c = m_rows m) (m_cols m).
  Lemma leaves_jacobian arm : leaves (fun m => m_rows m = 6%nat /\ tidy m /\ length (m_cols m) = c_dof arm) (jacobian arm).
  Proof.
    unfold jacobian. apply leaves_any. intros w. apply leaves_any. intros _.
    eapply leaves_bind; [unfold iter_joints; apply (leaves_mapM (fun c => length c = 6%nat))|].
    - intros a. unfold lock, get, unlock. cbn. intros n. eapply (leaves_bind (fun c => length c = 6%nat)); [|intros; assumption].
      apply leaves_any. intros ti. unfold jacobian_column. destruct (j_type (n_joint n)); cbn; auto.
    - intros cols Hc. destruct (decide _); [|exact I]. cbn. split; [reflexivity|]. split; [apply Forall_take; exact Hc|]. rewrite take_length. unfold dof in *. lia.
  Qed.
  Lemma leaves_rows ovf ops : forall i removed m, tidy m -> leaves (fun m' => tidy m' /\ (m_rows m' + length (List.filter negb ops) = m_rows m)%nat) (remove_rows ovf i removed ops m).
  Proof.
    induction ops as [|[|] ops IH]; intros i removed m Hm; cbn [remove_rows List.filter negb].
    - cbn. split; [exact Hm|lia].
    - apply IH. exact Hm.
    - apply leaves_any. intros k. destruct (decide (k < N.of_nat (m_rows m))%N) as [Hk|]; [|exact I].
      set (m1 := Mat _ _). assert (H1 : tidy m1).
      { unfold tidy, m1. cbn [m_rows m_cols]. apply Forall_forall. intros c Hc. apply elem_of_list_fmap in Hc as (c0 & -> & Hc0).
        unfold tidy in Hm. rewrite Forall_forall in Hm. pose proof (Hm c0 Hc0) as Hl. cbn in Hl. rewrite app_length, take_length, drop_length. lia. }
      specialize (IH (S i) (S removed) m1 H1). revert IH. generalize (remove_rows ovf (S i) (S removed) ops m1). intros p.
      assert (Hr : (m_rows m1 + 1 = m_rows m)%nat) by (unfold m1; cbn; lia).
      induction p; cbn [leaves]; auto. intros [H2 H3]. split; [exact H2|]. cbn [length]. lia.
  Qed.
  Lemma leaves_cols {A} (P : A -> Prop) ovf idx : forall i l, Forall P l -> leaves (fun l' => Forall P l') (remove_columns (T := T) ovf i idx l).
  Proof.
    induction idx as [|j idx IH]; intros i l Hl; cbn [remove_columns]; [exact Hl|]. apply leaves_any. intros k.
    eapply (leaves_bind (fun l' => Forall P l')); [|intros l' Hl'; apply IH; exact Hl'].
    unfold remove_nth. destruct (decide _); cbn; [|exact I]. apply Forall_app. split; [apply Forall_take|apply Forall_drop]; exact Hl.
  Qed.
  (** two solvers of linear systems with the same answers for tidy systems *)
  Definition same_answers (la la' : linalg T) : Prop :=
    forall J, tidy J -> (forall b, length b = m_rows J -> lu_solve la J b = lu_solve la' J b /\ svd_solve la J b = svd_solve la' J b) /\ pinv la J = pinv la' J.
  Variables (la la' : linalg T).
  Hypothesis Hla : same_answers la la'.
  Lemma new_positions_same ovf s orig err jac available required idx : tidy jac -> length err = m_rows jac ->
    new_positions ovf la s orig err jac available required idx = new_positions ovf la' s orig err jac available required idx.
  Proof.
    intros Hj He. destruct (Hla jac Hj) as [Hb Hp]. destruct (Hb err He) as [H1 H2]. unfold new_positions. rewrite H1, H2, Hp. reflexivity.
  Qed.
  Lemma diff_length (a b : iso T) ops : length ops = 6%nat -> (length (calc_pose_diff_with_constraints a b ops) + length (List.filter negb ops))%nat = 6%nat.
  Proof.
    intros H. unfold calc_pose_diff_with_constraints.
    do 6 (destruct ops as [|[|] ops]; [discriminate| |]); destruct ops; try discriminate; reflexivity.
  Qed.
  Lemma loop_same ovf s arm target ops idx : length ops = 6%nat ->
    solve_one_loop_with_constraints ovf la s arm target ops idx = solve_one_loop_with_constraints ovf la' s arm target ops idx.
  Proof.
    intros Hops. unfold solve_one_loop_with_constraints. apply bind_any. intros orig. apply bind_any. intros available. apply bind_any. intros w.
    eapply bind_same; [apply leaves_jacobian|]. intros m (Hm & Ht & _). eapply bind_same; [apply leaves_rows; exact Ht|]. intros m1 [Ht1 Hm1].
    eapply bind_same; [apply leaves_cols; exact Ht1|]. intros cols Hcols.
    rewrite new_positions_same; [reflexivity|exact Hcols|]. cbn [m_rows]. pose proof (diff_length target w ops Hops). lia.
  Qed.
  Lemma ik_loop_same ovf s arm target ops idx orig n : length ops = 6%nat -> forall last,
    ik_loop ovf la s arm target ops idx orig n last = ik_loop ovf la' s arm target ops idx orig n last.
  Proof.
    intros Hops. induction n as [|n IH]; intros last; cbn [ik_loop]; [reflexivity|]. rewrite loop_same by exact Hops. apply bind_any. intros [d|]; [|reflexivity].
    destruct (reached _ _); [reflexivity|]. apply IH.
  Qed.
  Lemma solve_same ovf s arm target c : solve_with_constraints ovf la s arm target c = solve_with_constraints ovf la' s arm target c.
  Proof.
    unfold solve_with_constraints. apply bind_any. intros orig.
    assert (E : solve_with_constraints_internal ovf la s arm target c = solve_with_constraints_internal ovf la' s arm target c); [|rewrite E; reflexivity].
    unfold solve_with_constraints_internal. apply bind_any. intros q. apply bind_any. intros available. destruct (decide _); [reflexivity|].
    apply bind_any. intros [idx|]; [|reflexivity]. apply ik_loop_same. reflexivity.
  Qed.
End Det.

(** matrices with the same action *)
Lemma combine_unit n cols : Forall (fun c => length c = n) cols -> forall i c, cols !! i = Some c -> combine n cols (unit_vec (length cols) i) = c.
Proof.
  induction 1 as [|a cols Ha H IH]; intros [|i] c Hi; try discriminate; cbn in Hi; cbn [length unit_vec]; rewrite combine_cons.
  - injection Hi as <-. rewrite combine_zero; [|exact H|intros j y Hj; apply elem_of_list_lookup_2, elem_of_list_In, repeat_spec in Hj; exact Hj].
    rewrite <- Ha. clear. unfold ladd, lscale. induction a as [|x a IH]; cbn; [reflexivity|]. rewrite IH. f_equal. ring.
  - rewrite (IH i c Hi). assert (Hc : length c = n) by exact (proj1 (Forall_lookup _ _) H i c Hi). rewrite <- Hc in Ha. clear -Ha. revert a Ha. unfold ladd, lscale.
    induction c as [|x c IH]; intros [|y a] E; try discriminate; cbn; [reflexivity|]. rewrite IH by (cbn in E; lia). f_equal. ring.
Qed.
Lemma same_action P Q r c : shaped P r c -> shaped Q r c -> (forall b, length b = c -> act P b = act Q b) -> P = Q.
Proof.
  intros (Pr & Pc & Pl) (Qr & Qc & Ql) H. destruct P as [pr pc], Q as [qr qc]. cbn [m_rows m_cols] in *. subst pr qr. f_equal. unfold act in H. cbn [m_rows m_cols] in H.
  apply list_eq. intros i. destruct (pc !! i) as [a|] eqn:Ea.
  - destruct (lookup_lt_is_Some_2 qc i) as [b Eb]; [apply lookup_lt_Some in Ea; lia|]. rewrite Eb. f_equal.
    rewrite <- (combine_unit r pc Pl i a Ea), <- (combine_unit r qc Ql i b Eb), Pc, Qc. apply H, unit_vec_length.
  - symmetry. apply lookup_ge_None. apply lookup_ge_None in Ea. lia.
Qed.
