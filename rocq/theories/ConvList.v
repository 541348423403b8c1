(** * Lengths of lists of reals *)
From Coq Require Import Reals Lra Psatz.
From stdpp Require Import gmap.
From Verif Require Import Scalar ScalarR Geometry Joint Link Prog NodeM IkM SpecStep LinAlgR SpecLin SvdProofs SpecReach SpecConv ConvGeom.
Local Open Scope R_scope.

Lemma norm_nonneg x : 0 <= norm x.
Proof. apply sqrt_pos. Qed.
Lemma dot_cs a b : length a = length b -> dot a b * dot a b <= dot a a * dot b b.
Proof.
  intros Hl. set (A := dot a a). set (B := dot b b). set (C := dot a b).
  assert (HB : 0 <= B) by apply dot_nonneg.
  destruct (Req_dec B 0) as [H0|H0].
  - apply dot_pos_zero in H0 as Hb. assert (C = 0) as -> by (unfold C; rewrite Hb; apply dot_zeros). rewrite H0. lra.
  - pose proof (dot_nonneg (diff (lscale B a) (lscale C b))) as H. rewrite dot_diff in H by (rewrite !lscale_length; exact Hl).
    rewrite (dot_comm (lscale B a) (lscale B a)), (dot_comm (lscale C b) (lscale C b)) in H || idtac.
    rewrite !dot_scale in H. rewrite (dot_comm (lscale B a) a), (dot_comm (lscale B a) b), (dot_comm (lscale C b) b) in H.
    rewrite !dot_scale, (dot_comm b a) in H. fold A B C in H. assert (0 < B) by lra. nra.
Qed.
Lemma dot_norm a b : length a = length b -> dot a b <= norm a * norm b.
Proof.
  intros Hl. pose proof (dot_cs a b Hl) as H. pose proof (norm_nonneg a). pose proof (norm_nonneg b).
  rewrite <- (norm_sqr a), <- (norm_sqr b) in H.
  destruct (Rle_dec (dot a b) (norm a * norm b)) as [|Hn]; [assumption|]. assert (0 <= norm a * norm b) by nra. nra.
Qed.
Lemma norm_le_of_sqr a x : 0 <= x -> dot a a <= x * x -> norm a <= x.
Proof. intros Hx H. unfold norm. rewrite <- (sqrt_square x) by exact Hx. apply sqrt_le_1_alt, H. Qed.
Lemma dot_ladd a b : length a = length b -> dot (ladd a b) (ladd a b) = dot a a + 2 * dot a b + dot b b.
Proof.
  revert b. induction a as [|x a IH]; intros [|y b] Hl; try discriminate; [cbn; lra|]. injection Hl as Hl.
  cbn [ladd zip_with dot]. change (zip_with _ a b) with (ladd a b). rewrite (IH b Hl). ring.
Qed.
Lemma norm_ladd a b : length a = length b -> norm (ladd a b) <= norm a + norm b.
Proof.
  intros Hl. pose proof (norm_nonneg a). pose proof (norm_nonneg b). apply norm_le_of_sqr; [lra|].
  rewrite dot_ladd by exact Hl. pose proof (dot_norm a b Hl). rewrite <- (norm_sqr a), <- (norm_sqr b). nra.
Qed.
Lemma norm_lscale m a : 0 <= m -> norm (lscale m a) = m * norm a.
Proof.
  intros Hm. unfold norm. assert (dot (lscale m a) (lscale m a) = m * m * dot a a) as ->.
  { rewrite dot_scale, dot_comm, dot_scale. ring. }
  rewrite sqrt_mult by (try apply Rle_0_sqr; apply dot_nonneg). rewrite sqrt_square by exact Hm. reflexivity.
Qed.
Lemma norm_entry a : forall i x, a !! i = Some x -> Rabs x <= norm a.
Proof.
  intros i x Hi. rewrite <- (Rabs_pos_eq (norm a)) by apply norm_nonneg. apply Rsqr_le_abs_0. unfold Rsqr. rewrite norm_sqr.
  revert i Hi. induction a as [|y a IH]; intros i Hi; [discriminate|]. cbn [dot]. destruct i as [|i].
  - injection Hi as ->. pose proof (dot_nonneg a). lra.
  - pose proof (IH i Hi). pose proof (Rle_0_sqr y). unfold Rsqr in *. lra.
Qed.
Lemma asum_sqr x : asum x * asum x <= INR (length x) * dot x x.
Proof.
  induction x as [|y x IH]; [change (asum []) with 0; cbn; lra|]. rewrite asum_cons. cbn [length dot]. rewrite S_INR.
  set (S := asum x) in *. set (n := INR (length x)) in *. set (D := dot x x) in *.
  assert (HS : 0 <= S) by apply asum_nonneg. assert (HD : 0 <= D) by apply dot_nonneg. assert (Hn : 0 <= n) by apply pos_INR.
  assert (Hy : y * y = Rabs y * Rabs y) by (rewrite <- Rabs_mult; symmetry; apply Rabs_pos_eq, Rle_0_sqr). rewrite Hy.
  pose proof (Rabs_pos y). set (a := Rabs y) in *.
  assert (H2 : 2 * a * S <= n * (a * a) + D); [|nra].
  destruct (Req_dec n 0) as [E|E]; [rewrite E in *; assert (S = 0) as -> by nra; nra|].
  assert (0 < n) by lra. assert (n * (2 * a * S) <= n * (n * (a * a) + D)); [|nra].
  assert (0 <= (n * a - S) * (n * a - S)) by apply Rle_0_sqr. nra.
Qed.
Lemma asum_norm x r : norm x <= r -> asum x <= INR (length x) * r.
Proof.
  intros Hr. assert (H : forall i y, x !! i = Some y -> Rabs y <= r) by (intros i y Hi; pose proof (norm_entry x i y Hi); lra).
  clear Hr. induction x as [|y x IH]; [change (asum []) with 0; cbn; lra|]. rewrite asum_cons. cbn [length]. rewrite S_INR.
  pose proof (H 0%nat y eq_refl). specialize (IH (fun i => H (S i))). lra.
Qed.
Lemma asum_lscale m x : asum (lscale m x) = Rabs m * asum x.
Proof. induction x as [|y x IH]; [unfold asum; cbn; ring|]. cbn [lscale map]. change (map _ x) with (lscale m x). rewrite !asum_cons, IH, Rabs_mult. ring. Qed.
