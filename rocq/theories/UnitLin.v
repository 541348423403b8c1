(** * Linear systems in other units *)
From Coq Require Import String Reals Lra Lia.
From stdpp Require Import gmap.
From Verif Require Import Scalar ScalarR Geometry Joint Link Prog NodeM ChainM FuncsM IkM LuM SpecGeom
  SpecStep SpecLin LinAlgR SpecUnit PropLu.
Local Open Scope R_scope.

Lemma zip_zeros rs n : length rs = n -> zip_with Rmult rs (repeat 0 n) = repeat 0 n.
Proof. intros <-. induction rs as [|r rs IH]; cbn; [reflexivity|]. f_equal; [lra|exact IH]. Qed.
Lemma zip_zeros_inv rs x : length rs = length x -> Forall (fun r => r <> 0) rs -> zip_with Rmult rs x = repeat 0 (length x) -> x = repeat 0 (length x).
Proof.
  revert x. induction rs as [|r rs IH]; intros [|y x] L H E; try discriminate; [reflexivity|]. cbn in *. apply Forall_cons in H as [Hr H].
  injection E as E1 E2. f_equal; [|apply IH; [lia|exact H|exact E2]]. apply Rmult_integral in E1 as [E1|E1]; [contradiction|exact E1].
Qed.
Lemma zip_units_inv ks z : length ks = length z -> Forall (fun u => u <> 0) ks -> zip_with Rmult ks (zip_with (fun u y => / u * y) ks z) = z.
Proof.
  revert z. induction ks as [|u ks IH]; intros [|y z] L H; try discriminate; [reflexivity|]. cbn in *. apply Forall_cons in H as [Hu H].
  f_equal; [field; exact Hu|apply IH; [lia|exact H]].
Qed.
Definition rescaled_mat (rs ks : list R) (J : mat R) : mat R := Mat (m_rows J) (zip_with (rescaled_column rs) ks (m_cols J)).

Lemma combine_rescaled n rs : length rs = n -> forall cols, Forall (fun c => length c = n) cols -> forall ks x, Forall (fun u => u <> 0) ks -> length ks = length cols -> length x = length cols ->
  combine n (zip_with (rescaled_column rs) ks cols) (zip_with Rmult ks x) = zip_with Rmult rs (combine n cols x).
Proof.
  intros Hrs. induction cols as [|c cols IH]; intros Hc ks x Hk L1 L2.
  - destruct ks; [|discriminate]. cbn. symmetry. apply zip_zeros. exact Hrs.
  - destruct ks as [|u ks], x as [|y x]; try discriminate. cbn in L1, L2. apply Forall_cons in Hc as [Hc0 Hc]. apply Forall_cons in Hk as [Hu Hk].
    cbn [zip_with combine]. rewrite IH by (try assumption; lia). pose proof (combine_length n cols x Hc) as Ls. revert Ls. generalize (combine n cols x) as S.
    clear -Hrs Hc0 Hu. unfold rescaled_column. revert c n Hrs Hc0. induction rs as [|r rs IH]; intros [|a c] n Hr Hc [|s S] Hs; cbn in *; try reflexivity; try congruence.
    f_equal; [field; exact Hu|]. apply (IH c (length rs)); congruence.
Qed.

Lemma lu_rescaled rs ks (J : mat R) n b : shaped J n n -> length b = n -> length rs = n -> length ks = n ->
  Forall (fun r => r <> 0) rs -> Forall (fun u => u <> 0) ks ->
  na_lu_solve (rescaled_mat rs ks J) (zip_with Rmult rs b) = zip_with Rmult ks <$> na_lu_solve J b.
Proof.
  intros HJ Hb Lr Lk Hr Hk. pose proof HJ as (J1 & J2 & J3).
  assert (HJ' : shaped (rescaled_mat rs ks J) n n).
  { split; [exact J1|]. split; [cbn; rewrite zip_with_length; lia|]. cbn [rescaled_mat m_cols].
    clear -J3 Lr. revert ks. induction J3 as [|c cols Hc H IH]; intros [|u ks]; cbn; constructor; [|apply IH].
    unfold rescaled_column. rewrite map_length, zip_with_length. lia. }
  assert (Hb' : length (zip_with Rmult rs b) = n) by (rewrite zip_with_length; lia).
  assert (Hsol : forall x, length x = n -> combine n (m_cols (rescaled_mat rs ks J)) (zip_with Rmult ks x) = zip_with Rmult rs (combine n (m_cols J) x)).
  { intros x Hx. apply combine_rescaled; congruence. }
  destruct (na_lu_solve J b) as [x|] eqn:E; cbn [fmap option_fmap option_map].
  - destruct (C66_lu_exact J n b x HJ Hb E) as ((Lx & Hs) & _ & Hreg).
    destruct (na_lu_solve (rescaled_mat rs ks J) (zip_with Rmult rs b)) as [x'|] eqn:E'.
    + destruct (C66_lu_exact _ n _ x' HJ' Hb' E') as (_ & Hu & _). f_equal. symmetry. apply Hu. split.
      * destruct HJ' as (_ & L' & _). rewrite L', zip_with_length. lia.
      * cbn [rescaled_mat m_rows]. rewrite J1. rewrite Hsol by congruence. rewrite <- Hs, J1. reflexivity.
    + apply (C66_lu_singular _ n _ HJ' Hb') in E'. exfalso. apply E'. intros z [Lz Hz]. destruct HJ' as (_ & L' & _). rewrite L' in Lz |- *. cbn [rescaled_mat m_rows] in Hz. rewrite J1 in Hz.
      set (y := zip_with (fun u y => / u * y) ks z). assert (Ez : zip_with Rmult ks y = z) by (apply zip_units_inv; [congruence|exact Hk]).
      assert (Ly : length y = n) by (unfold y; rewrite zip_with_length; lia).
      assert (Lc : length (combine n (m_cols J) y) = n) by (apply combine_length; exact J3).
      rewrite <- Ez, Hsol in Hz by exact Ly. assert (Hz' : zip_with Rmult rs (combine n (m_cols J) y) = repeat 0 (length (combine n (m_cols J) y))) by (rewrite Lc; exact Hz). clear Hz. rename Hz' into Hz. apply zip_zeros_inv in Hz; [|congruence|exact Hr].
      assert (Hy : y = zeros (length (m_cols J))) by (apply Hreg; split; [congruence|rewrite J1; unfold zeros; rewrite Hz, Lc; reflexivity]).
      rewrite <- Ez, Hy, J2. unfold zeros. apply zip_zeros. exact Lk.
  - apply (C66_lu_singular J n b HJ Hb) in E. apply (C66_lu_singular _ n _ HJ' Hb'). intros Hreg. apply E. intros y [Ly Hy]. rewrite J2 in Ly |- *. rewrite J1 in Hy.
    assert (Hz : zip_with Rmult ks y = zeros n).
    { destruct HJ' as (_ & L' & _). rewrite <- L'. apply Hreg. split; [rewrite L', zip_with_length; lia|]. cbn [rescaled_mat m_rows]. rewrite J1, Hsol by exact Ly. rewrite Hy. apply zip_zeros. exact Lr. }
    unfold zeros in *. rewrite <- Ly in Hz |- *. apply zip_zeros_inv in Hz; [exact Hz|congruence|exact Hk].
Qed.

(** the rows the constraints select *)
Lemma select_zip {A B C} (f : A -> B -> C) ops : forall l m, length l = length m -> select ops (zip_with f l m) = zip_with f (select ops l) (select ops m).
Proof.
  induction ops as [|b ops IH]; intros [|x l] [|y m] E; cbn in *; try discriminate; try reflexivity; try (destruct b; reflexivity).
  destruct b; cbn; rewrite IH by lia; reflexivity.
Qed.
Lemma select_map {A B} (f : A -> B) ops : forall l, select ops (map f l) = map f (select ops l).
Proof. induction ops as [|b ops IH]; intros [|x l]; cbn; try reflexivity. destruct b; cbn; rewrite IH; reflexivity. Qed.
Lemma select_column ops rs u c : length rs = length c -> select ops (rescaled_column rs u c) = rescaled_column (select ops rs) u (select ops c).
Proof. intros E. unfold rescaled_column. rewrite select_map, select_zip by exact E. reflexivity. Qed.
Lemma select_columns ops rs ks cols : Forall (fun c => length c = length rs) cols ->
  map (select ops) (zip_with (rescaled_column rs) ks cols) = zip_with (rescaled_column (select ops rs)) ks (map (select ops) cols).
Proof.
  intros H. revert ks. induction H as [|c cols Hc H IH]; intros [|u ks]; cbn; try reflexivity. rewrite select_column by congruence. f_equal. apply IH.
Qed.
Lemma select_len {A} ops : forall l : list A, length ops = length l -> length (select ops l) = count_true ops.
Proof.
  induction ops as [|b ops IH]; intros [|x l] E; try discriminate; [reflexivity|]. cbn in E. unfold count_true in *. destruct b; cbn; rewrite IH by lia; reflexivity.
Qed.
Lemma Forall_select {A} (P : A -> Prop) ops : forall l, Forall P l -> Forall P (select ops l).
Proof. induction ops as [|b ops IH]; intros l H; [constructor|]. destruct H as [|x l Hx H]; cbn; [destruct b; constructor|]. destruct b; [constructor|]; auto. Qed.
