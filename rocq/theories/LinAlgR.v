(** * Matrices acting on vectors, over the reals *)
From Coq Require Import String Reals Lra.
From stdpp Require Import gmap.
From Verif Require Import Scalar ScalarR Geometry Joint Link Prog NodeM ChainM FuncsM IkM SpecNode SpecStep.
Local Open Scope R_scope.

Definition ladd (a b : list R) : list R := zip_with Rplus a b.
Definition lsub (a b : list R) : list R := zip_with Rminus a b.
Definition lscale (k : R) (a : list R) : list R := map (Rmult k) a.

Lemma zip_ext {A B C} (f g : A -> B -> C) (l : list A) (k : list B) : (forall a b, f a b = g a b) -> zip_with f l k = zip_with g l k.
Proof. intros H. apply zip_with_ext; auto. Qed.

Lemma combine_length n cols x : Forall (fun c => length c = n) cols -> length (combine n cols x) = n.
Proof.
  intros H. revert x. induction H as [|c cols Hc H IH]; intros [|y x]; cbn; try (rewrite repeat_length; reflexivity).
  rewrite zip_with_length, IH, Hc. lia.
Qed.
Lemma combine_add n cols : Forall (fun c => length c = n) cols -> forall x y, length x = length cols -> length y = length cols ->
  combine n cols (ladd x y) = ladd (combine n cols x) (combine n cols y).
Proof.
  induction 1 as [|c cols Hc H IH]; intros [|a x] [|b y] Ex Ey; try discriminate; cbn.
  - unfold ladd. clear. induction n as [|n IHn]; cbn; [reflexivity|]. rewrite <- IHn. f_equal. ring.
  - injection Ex as Ex. injection Ey as Ey. fold (ladd x y). rewrite (IH x y Ex Ey).
    assert (Hx := combine_length n cols x H). assert (Hy := combine_length n cols y H).
    revert Hx Hy. rewrite <- Hc. generalize (combine (length c) cols x), (combine (length c) cols y). clear.
    induction c as [|u c IHc]; intros [|v l] [|w k] E1 E2; cbn; try discriminate; [reflexivity|]. rewrite <- IHc by (cbn in *; lia). f_equal. ring.
Qed.
Lemma combine_scale n cols k : Forall (fun c => length c = n) cols -> forall x, length x = length cols ->
  combine n cols (lscale k x) = lscale k (combine n cols x).
Proof.
  induction 1 as [|c cols Hc H IH]; intros [|a x] Ex; try discriminate; cbn.
  - unfold lscale. clear. induction n as [|n IHn]; cbn; [reflexivity|]. rewrite <- IHn. f_equal. ring.
  - injection Ex as Ex. fold (lscale k x). rewrite (IH x Ex).
    assert (Hx := combine_length n cols x H).
    revert Hx. rewrite <- Hc. generalize (combine (length c) cols x). clear.
    induction c as [|u c IHc]; intros [|v l] E1; cbn; try discriminate; [reflexivity|]. rewrite <- IHc by (cbn in *; lia). f_equal. ring.
Qed.
Lemma lsub_add a b : lsub a b = ladd a (lscale (-1) b).
Proof.
  revert b. induction a as [|x a IH]; intros [|y b]; cbn; try reflexivity. unfold lsub, ladd, lscale in *. rewrite IH. f_equal. ring.
Qed.
Lemma lscale_length k a : length (lscale k a) = length a.
Proof. apply map_length. Qed.
Lemma ladd_length a b : length a = length b -> length (ladd a b) = length a.
Proof. intros H. unfold ladd. rewrite zip_with_length. lia. Qed.
Lemma combine_sub n cols : Forall (fun c => length c = n) cols -> forall x y, length x = length cols -> length y = length cols ->
  combine n cols (lsub x y) = lsub (combine n cols x) (combine n cols y).
Proof.
  intros H x y Ex Ey. rewrite !lsub_add, combine_add, combine_scale; auto. rewrite lscale_length. exact Ey.
Qed.
Lemma combine_zero n cols : Forall (fun c => length c = n) cols -> forall x, (forall i y, x !! i = Some y -> y = 0) ->
  combine n cols x = repeat 0 n.
Proof.
  induction 1 as [|c cols Hc H IH]; intros [|a x] Hx; cbn; try reflexivity.
  rewrite (Hx 0%nat a eq_refl). rewrite (IH x) by (intros i y Hi; exact (Hx (S i) y Hi)).
  rewrite <- Hc. clear. induction c as [|u c IHc]; cbn; [reflexivity|]. rewrite IHc. f_equal. ring.
Qed.
(** rows *)
Lemma flagged_length {A} flags : forall (l : list A), length l = length flags ->
  length (flagged flags l) = length (filter (fun b => b = true) flags).
Proof. induction flags as [|[] flags IH]; intros [|x l] E; try discriminate; cbn in *; [reflexivity| |]; rewrite IH by lia; reflexivity. Qed.
Lemma flagged_zip {A B C} (f : A -> B -> C) flags : forall l k, flagged flags (zip_with f l k) = zip_with f (flagged flags l) (flagged flags k).
Proof.
  induction flags as [|[] flags IH]; intros [|x l] [|y k]; cbn; try reflexivity; rewrite ?IH; try reflexivity.
  destruct (flagged flags l); reflexivity.
Qed.
Lemma flagged_repeat {A} (x : A) flags : flagged flags (repeat x (length flags)) = repeat x (length (filter (fun b => b = true) flags)).
Proof. induction flags as [|[] flags IH]; cbn; [reflexivity| |]; rewrite IH; reflexivity. Qed.
Lemma flagged_map {A B} (f : A -> B) flags : forall l, flagged flags (map f l) = map f (flagged flags l).
Proof. induction flags as [|[] flags IH]; intros [|x l]; cbn; try reflexivity; rewrite ?IH; reflexivity. Qed.
Lemma flagged_combine flags cols : forall x,
  flagged flags (combine (length flags) cols x) = combine (length (filter (fun b => b = true) flags)) (map (flagged flags) cols) x.
Proof.
  induction cols as [|c cols IH]; intros [|y x]; cbn [combine map]; try apply flagged_repeat.
  rewrite flagged_zip, IH. reflexivity.
Qed.
(** columns with a zero weight may be dropped *)
Lemma combine_without_from n idx cols : Forall (fun c => length c = n) cols -> forall k full, length full = length cols ->
  (forall j, (j < length full)%nat -> (k + j)%nat ∈ idx -> full !! j = Some 0) ->
  combine n (without_from k idx cols) (without_from k idx full) = combine n cols full.
Proof.
  induction 1 as [|c cols Hc H IH]; intros k [|y full] E Hz; try discriminate; cbn; [reflexivity|].
  injection E as E.
  assert (Hrec : combine n (without_from (S k) idx cols) (without_from (S k) idx full) = combine n cols full).
  { apply IH; [exact E|]. intros j Hj Hin. apply (Hz (S j)); [cbn; lia|]. rewrite Nat.add_succ_r. exact Hin. }
  case_decide as Hk; cbn; rewrite Hrec; [|reflexivity].
  assert (y = 0) as ->. { specialize (Hz 0%nat ltac:(cbn; lia)). rewrite Nat.add_0_r in Hz. specialize (Hz Hk). cbn in Hz. congruence. }
  assert (Hl := combine_length n cols full H). revert Hl. rewrite <- Hc. generalize (combine (length c) cols full). clear.
  induction c as [|u c IHc]; intros [|v l] E; cbn; try discriminate; [reflexivity|]. rewrite <- IHc by (cbn in *; lia). f_equal. ring.
Qed.

(** ** the model's matrix operations *)
Lemma lsum_acc (l : list R) : forall a, foldl sadd a l = a + foldr Rplus 0 l.
Proof. induction l as [|x l IH]; intros a; cbn; [ring|]. rewrite IH. cbn. ring. Qed.
Lemma nth_zip (f : R -> R -> R) (c l : list R) r : length c = length l -> f 0 0 = 0 ->
  nth r (zip_with f c l) 0 = f (nth r c 0) (nth r l 0).
Proof.
  intros E Hf. revert c l E. induction r as [|r IH]; intros [|x c] [|y l] E; try discriminate; cbn; auto.
Qed.
Lemma nth_repeat0 n r : nth r (repeat 0 n) 0 = 0.
Proof. revert r. induction n as [|n IH]; intros [|r]; cbn; auto. Qed.
Lemma map_nth_seq (l : list R) n : length l = n -> map (fun r => nth r l 0) (seq 0 n) = l.
Proof.
  intros <-. induction l as [|x l IH]; [reflexivity|]. cbn [length seq map]. f_equal.
  rewrite <- seq_shift, map_map. exact IH.
Qed.
Lemma mat_vec_combine (m : mat R) v : Forall (fun c => length c = m_rows m) (m_cols m) ->
  mat_vec m v = combine (m_rows m) (m_cols m) v.
Proof.
  intros H. rewrite <- (map_nth_seq (combine (m_rows m) (m_cols m) v) (m_rows m)) by (apply combine_length; exact H).
  unfold mat_vec. apply map_ext. intros r. unfold lsum. rewrite lsum_acc. unfold row.
  change (@szero R RScalar) with 0. rewrite Rplus_0_l. revert H. generalize (m_rows m) as n. revert v.
  induction (m_cols m) as [|c cols IH]; intros [|y v] n Hn; cbn [map zip_with combine foldr]; try (rewrite nth_repeat0; reflexivity).
  apply Forall_cons in Hn as [Hc Hn]. rewrite (IH v n Hn).
  rewrite nth_zip; [|rewrite Hc, combine_length by exact Hn; reflexivity|ring]. reflexivity.
Qed.
Lemma mat_mul_combine (a b : mat R) v : Forall (fun c => length c = m_rows a) (m_cols a) ->
  Forall (fun c => length c = m_rows b) (m_cols b) -> length (m_cols a) = m_rows b -> length v = length (m_cols b) ->
  combine (m_rows a) (map (mat_vec a) (m_cols b)) v = combine (m_rows a) (m_cols a) (combine (m_rows b) (m_cols b) v).
Proof.
  intros Ha Hb Hab. revert v. induction Hb as [|c cols Hc Hb IH]; intros [|y v] E; try discriminate; cbn [map combine].
  - symmetry. apply combine_zero; [exact Ha|]. intros i y Hi. apply elem_of_list_lookup_2, elem_of_list_In, repeat_spec in Hi. exact Hi.
  - injection E as E. rewrite (IH v E). rewrite mat_vec_combine by exact Ha.
    assert (G : zip_with (fun a0 s => a0 * y + s) c (combine (m_rows b) cols v) = ladd (lscale y c) (combine (m_rows b) cols v)).
    { generalize (combine (m_rows b) cols v). clear. induction c as [|u c IHc]; intros [|w l]; cbn; try reflexivity. unfold ladd, lscale in *. rewrite IHc. f_equal. ring. }
    rewrite G, combine_add, combine_scale; [|exact Ha|congruence|exact Ha|rewrite lscale_length; congruence|rewrite combine_length by exact Hb; congruence].
    generalize (combine (m_rows a) (m_cols a) c), (combine (m_rows a) (m_cols a) (combine (m_rows b) cols v)). clear.
    intros l. induction l as [|u l IHl]; intros [|w k]; cbn; try reflexivity. unfold ladd, lscale in *. rewrite IHl. f_equal. ring.
Qed.
Lemma mat_sub_combine n (A B : list (list R)) : Forall (fun c => length c = n) A -> Forall (fun c => length c = n) B ->
  length A = length B -> forall v, combine n (zip_with (zip_with ssub) A B) v = lsub (combine n A v) (combine n B v).
Proof.
  intros HA. revert B. induction HA as [|a A Ha HA IH]; intros [|b B] HB E v; try discriminate; cbn.
  - unfold lsub. clear. induction n as [|n IHn]; cbn; [reflexivity|]. rewrite <- IHn. f_equal. ring.
  - apply Forall_cons in HB as [Hb HB]. injection E as E. destruct v as [|y v].
    + unfold lsub. clear. induction n as [|n IHn]; cbn; [reflexivity|]. rewrite <- IHn. f_equal. ring.
    + rewrite (IH B HB E). assert (H1 := combine_length n A v HA). assert (H2 := combine_length n B v HB).
      revert H1 H2 Hb. rewrite <- Ha. generalize (combine (length a) A v), (combine (length a) B v). clear. revert b.
      induction a as [|u a IHa]; intros [|w b] [|k1 l1] [|k2 l2] E1 E2 E3; cbn in *; try discriminate; [reflexivity|].
      f_equal; [ring|]. apply (IHa b l1 l2); lia.
Qed.
Lemma ident_cols n : Forall (fun c => length c = n) (m_cols (ident (T := R) n)).
Proof. cbn. apply Forall_map, Forall_true. intros c. rewrite map_length, seq_length. reflexivity. Qed.
Lemma ident_combine n v : length v = n -> combine n (m_cols (ident (T := R) n)) v = v.
Proof.
  intros Hv. apply list_eq_same_length with n; [exact Hv|apply combine_length, ident_cols|].
  intros r x y Hr Hx Hy.
  assert (G : forall cols w, Forall (fun c => length c = n) cols -> length w = length cols ->
    nth r (combine n cols w) 0 = foldr Rplus 0 (zip_with (fun c y => nth r c 0 * y) cols w)).
  { clear. intros cols w H. revert w. induction H as [|c cols Hc H IH]; intros [|y w] E; try discriminate; cbn; [apply nth_repeat0|].
    injection E as E. rewrite nth_zip; [rewrite IH by exact E; reflexivity|rewrite Hc, combine_length by exact H; reflexivity|ring]. }
  assert (Hn : nth r (combine n (m_cols (ident (T := R) n)) v) 0 = x) by (apply nth_lookup_Some with (d := 0) in Hx; rewrite <- Hx; reflexivity).
  assert (Hny : nth r v 0 = y) by (apply nth_lookup_Some; exact Hy).
  rewrite <- Hn, <- Hny. rewrite G; [|apply ident_cols|cbn; rewrite map_length, seq_length; exact Hv].
  cbn [ident m_cols]. clear -Hr Hv.
  assert (K : forall k w, foldr Rplus 0 (zip_with (fun c y => nth r c 0 * y)
      (map (fun c => map (fun r0 => if decide (r0 = c) then sone else szero) (seq 0 n)) (seq k (length w))) w) =
      (if decide (k <= r < k + length w)%nat then nth (r - k) w 0 else 0)).
  { intros k w. revert k. induction w as [|a w IH]; intros k; cbn [length seq map zip_with foldr].
    - rewrite decide_False by lia. reflexivity.
    - rewrite IH.
      assert (En : nth r (map (fun r0 : nat => if decide (r0 = k) then sone else szero) (seq 0 n)) 0 = if decide (r = k) then 1 else 0).
      { rewrite (nth_indep _ 0 ((fun r0 : nat => if decide (r0 = k) then sone else szero) n)) by (rewrite map_length, seq_length; exact Hr).
        rewrite (map_nth (fun r0 : nat => if decide (r0 = k) then sone else szero)), seq_nth by exact Hr. reflexivity. }
      rewrite En. destruct (decide (r = k)) as [->|Hne].
      + rewrite (decide_False (P := (S k <= k < S k + length w)%nat)) by lia. rewrite decide_True by lia.
        rewrite Nat.sub_diag. cbn. ring.
      + case_decide as H1; case_decide as H2; try lia.
        * replace (r - k)%nat with (S (r - S k)) by lia. cbn. ring.
        * ring. }
  specialize (K 0%nat v). rewrite Hv in K. rewrite K. rewrite decide_True by lia. rewrite Nat.sub_0_r. reflexivity.
Qed.
