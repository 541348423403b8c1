(** * Every real matrix has a singular value decomposition *)
From Coq Require Import String Reals Lra Lia.
From stdpp Require Import gmap.
From Verif Require Import Scalar ScalarR Geometry Joint Link Prog NodeM ChainM FuncsM IkM SpecNode SpecStep SvdM SpecLin LinAlgR LuM LuProofs SvdProofs SvdMax.
Local Open Scope R_scope.

Fixpoint total (k : nat) (f : nat -> R) : R := match k with O => 0 | S k => f O + total k (fun i => f (S i)) end.
Lemma total_ext k : forall f g, (forall i, (i < k)%nat -> f i = g i) -> total k f = total k g.
Proof. induction k as [|k IH]; intros f g H; cbn; [reflexivity|]. rewrite (H 0%nat) by lia. f_equal. apply IH. intros i Hi. apply H. lia. Qed.
Lemma total_add k : forall f g, total k (fun i => f i + g i) = total k f + total k g.
Proof. induction k as [|k IH]; intros f g; cbn; [ring|]. rewrite IH. ring. Qed.
Lemma total_opp k : forall f, total k (fun i => - f i) = - total k f.
Proof. induction k as [|k IH]; intros f; cbn; [ring|]. rewrite (IH (fun i => f (S i))). ring. Qed.
Lemma total_const k c : total k (fun _ => c) = INR k * c.
Proof. induction k as [|k IH]; [cbn; ring|]. rewrite S_INR. cbn [total]. rewrite IH. ring. Qed.
Lemma total_le k : forall f g, (forall i, (i < k)%nat -> f i <= g i) -> total k f <= total k g.
Proof. induction k as [|k IH]; intros f g H; cbn; [lra|]. apply Rplus_le_compat; [apply H; lia|]. apply IH. intros i Hi. apply H. lia. Qed.
Lemma total_pos k : forall f, 0 < total k f -> { i | (i < k)%nat /\ 0 < f i }.
Proof.
  induction k as [|k IH]; intros f H; cbn in H; [lra|]. destruct (Rlt_dec 0 (f 0%nat)) as [H0|H0]; [exists 0%nat; split; [lia|exact H0]|].
  destruct (IH (fun i => f (S i))) as (i & Hi & Hp); [lra|]. exists (S i). split; [lia|exact Hp].
Qed.
Lemma dot_total a : forall b, dot a b = total (length a) (fun i => nth i a 0 * nth i b 0).
Proof.
  induction a as [|x a IH]; intros [|y b]; cbn; try reflexivity.
  - symmetry. rewrite (total_ext _ _ (fun _ => 0)) by (intros; ring). rewrite total_const. ring.
  - rewrite IH. reflexivity.
Qed.
Lemma tame_total N B k : forall (f : list R -> nat -> R), (forall i, (i < k)%nat -> tame N B (fun z => f z i)) -> tame N B (fun z => total k (f z)).
Proof.
  induction k as [|k IH]; intros f H; cbn [total]; [apply tame_const|]. apply tame_add; [apply H; lia|].
  apply (IH (fun z i => f z (S i))). intros i Hi. apply H. lia.
Qed.
Lemma nth_take (m : nat) : forall (z : list R) i, nth i (take m z) 0 = if (i <? m)%nat then nth i z 0 else 0.
Proof.
  induction m as [|m IH]; intros [|a z] i; cbn [take].
  - destruct i; reflexivity.
  - destruct i; reflexivity.
  - destruct i; cbn; [reflexivity|]. match goal with |- context [if ?b then _ else _] => destruct b end; reflexivity.
  - destruct i as [|i]; cbn [nth]; [reflexivity|]. rewrite IH. reflexivity.
Qed.
Lemma nth_drop (m : nat) : forall (z : list R) i, nth i (drop m z) 0 = nth (m + i) z 0.
Proof. induction m as [|m IH]; intros [|a z] i; cbn; try reflexivity; [destruct i; reflexivity|apply IH]. Qed.
Lemma tame_take N B m i : 0 <= B -> tame N B (fun z => nth i (take m z) 0).
Proof.
  intros HB. apply (tame_ext _ _ (fun z => if (i <? m)%nat then nth i z 0 else 0)); [intros; symmetry; apply nth_take|].
  destruct (i <? m)%nat; [apply tame_nth; exact HB|apply tame_const].
Qed.
Lemma tame_drop N B m i : 0 <= B -> tame N B (fun z => nth i (drop m z) 0).
Proof. intros HB. apply (tame_ext _ _ (fun z => nth (m + i) z 0)); [intros; symmetry; apply nth_drop|apply tame_nth; exact HB]. Qed.
Lemma tame_dot N B (a : list R) (g : list R -> list R) : (forall i, tame N B (fun z => nth i (g z) 0)) -> tame N B (fun z => dot a (g z)).
Proof.
  intros H. apply (tame_ext _ _ (fun z => total (length a) (fun i => nth i a 0 * nth i (g z) 0))); [intros; symmetry; apply dot_total|].
  apply tame_total. intros i _. apply tame_scale, H.
Qed.
Lemma tame_dot2 N B k (f g : list R -> list R) : (forall z, box N B z -> length (f z) = k) ->
  (forall i, tame N B (fun z => nth i (f z) 0)) -> (forall i, tame N B (fun z => nth i (g z) 0)) -> tame N B (fun z => dot (f z) (g z)).
Proof.
  intros Hk Hf Hg. apply (tame_ext _ _ (fun z => total k (fun i => nth i (f z) 0 * nth i (g z) 0))).
  { intros z Hz. rewrite dot_total, Hk by exact Hz. reflexivity. }
  apply tame_total. intros i _. apply tame_mul; auto.
Qed.

(** forms on pairs of vectors *)
Record bilinear (m n : nat) (f : list R -> list R -> R) : Prop := {
  bil_add_l : forall x x' y, length x = m -> length x' = m -> length y = n -> f (ladd x x') y = f x y + f x' y;
  bil_scale_l : forall k x y, length x = m -> length y = n -> f (lscale k x) y = k * f x y;
  bil_add_r : forall x y y', length x = m -> length y = n -> length y' = n -> f x (ladd y y') = f x y + f x y';
  bil_scale_r : forall k x y, length x = m -> length y = n -> f x (lscale k y) = k * f x y;
  bil_tame : forall B, 0 <= B -> tame (m + n) B (fun z => f (take m z) (drop m z)) }.
Definition size (x y : list R) : R := dot x x + dot y y.

Lemma dot_app a : forall b c d, length a = length c -> dot (a ++ b) (c ++ d) = dot a c + dot b d.
Proof. induction a as [|x a IH]; intros b [|y c] d E; try discriminate; cbn; [ring|]. rewrite IH by (cbn in E; lia). ring. Qed.
Lemma dot_add_l a b c : length a = length b -> dot (ladd a b) c = dot a c + dot b c.
Proof. intros H. rewrite dot_comm, dot_add by exact H. rewrite (dot_comm c a), (dot_comm c b). reflexivity. Qed.
Lemma dot_scale_l k a c : dot (lscale k a) c = k * dot a c.
Proof. rewrite dot_comm, dot_scale, dot_comm. reflexivity. Qed.
Lemma size_dot m z : size (take m z) (drop m z) = dot z z.
Proof. unfold size. rewrite <- dot_app by reflexivity. rewrite take_drop. reflexivity. Qed.
Lemma dot_entry x a : a ∈ x -> a * a <= dot x x.
Proof.
  induction x as [|b x IH]; intros H; [apply elem_of_nil in H; contradiction|]. cbn. apply elem_of_cons in H as [->|H]; [pose proof (dot_nonneg x); lra|].
  specialize (IH H). nra.
Qed.
Lemma dot_box N B z : 0 <= B -> length z = N -> dot z z <= B * B -> box N B z.
Proof.
  intros HB Hl H. split; [exact Hl|]. apply Forall_forall. intros a Ha. apply dot_entry in Ha. assert (a * a <= B * B) by lra. split; nra.
Qed.
Lemma outside_box N B z : 0 <= B -> length z = N -> box N B z \/ B * B < dot z z.
Proof. intros HB Hl. destruct (Rle_lt_dec (dot z z) (B * B)) as [H|H]; [left; apply dot_box; assumption|right; exact H]. Qed.

Lemma slope_zero a K : 0 <= K -> (forall t, -1 <= t <= 1 -> a * t <= K * (t * t)) -> a = 0.
Proof.
  intros HK H. set (D := K + Rabs a + 1). pose proof (Rabs_pos a) as Ha. pose proof (Rle_abs a) as H1. pose proof (Rle_abs (- a)) as H2. rewrite Rabs_Ropp in H2.
  assert (HD : 0 < D) by (unfold D; lra).
  assert (Ht : -1 <= a / D <= 1).
  { split; apply Rmult_le_reg_r with D; try exact HD; unfold Rdiv; rewrite Rmult_assoc, Rinv_l, Rmult_1_r by lra; unfold D; lra. }
  specialize (H _ Ht). apply (Rmult_le_compat_r (D * D)) in H; [|nra].
  replace (a * (a / D) * (D * D)) with (a * a * D) in H by (field; lra).
  replace (K * (a / D * (a / D)) * (D * D)) with (a * a * K) in H by (field; lra).
  assert (a * a <= 0); [|nra]. assert (H3 : a * a * (D - K) <= 0) by lra. unfold D in H3. pose proof (Rle_0_sqr a) as Hq. unfold Rsqr in Hq. nra.
Qed.
Lemma even_nonpos b K : 0 <= K -> (forall t, -1 <= t <= 1 -> b * (t * t) <= K * (t * t * (t * t))) -> b <= 0.
Proof.
  intros HK H. destruct (Rle_lt_dec b 0) as [Hb|Hb]; [exact Hb|exfalso].
  set (D := K + b + 1). assert (HD : 0 < D) by (unfold D; lra).
  assert (Hq : 0 < b / D) by (apply Rdiv_lt_0_compat; lra).
  assert (Hq1 : b / D < 1). { apply Rmult_lt_reg_r with D; [exact HD|]. unfold Rdiv. rewrite Rmult_assoc, Rinv_l, Rmult_1_r by lra. unfold D; lra. }
  set (t := R_sqrt.sqrt (b / D)). assert (Htt : t * t = b / D) by (apply sqrt_sqrt; lra).
  assert (Ht : 0 <= t) by apply sqrt_pos. specialize (H t ltac:(split; nra)). rewrite Htt in H.
  apply (Rmult_le_compat_r (D * D)) in H; [|nra].
  replace (b * (b / D) * (D * D)) with (b * b * D) in H by (field; lra).
  replace (K * (b / D * (b / D)) * (D * D)) with (b * b * K) in H by (field; lra). unfold D in H. nra.
Qed.

Section Form.
  Variables (m n : nat) (f : list R -> list R -> R).
  Hypothesis Hf : bilinear m n f.
  Let N := (m + n)%nat.
  Lemma split_len (z : list R) : length z = N -> length (take m z) = m /\ length (drop m z) = n.
  Proof. unfold N. intros H. rewrite take_length, drop_length. lia. Qed.
  Lemma bil_zero_l y : length y = n -> f (zeros m) y = 0.
  Proof.
    intros Hy. replace (zeros m) with (lscale 0 (zeros m)); [rewrite (bil_scale_l _ _ _ Hf) by (try apply repeat_length; exact Hy); ring|].
    unfold lscale, zeros. clear. induction m; cbn; [reflexivity|]. rewrite IHn. f_equal. ring.
  Qed.
  (** the form is at most [C] times the size of its arguments *)
  Lemma form_bound : { C | 0 <= C /\ forall x y, length x = m -> length y = n -> f x y <= C * size x y }.
  Proof.
    destruct (box_max N 1 (fun z => f (take m z) (drop m z))) as (z & Hz & Hmax); [lra| |].
    { destruct (bil_tame _ _ _ Hf 1) as (M & L & _ & HL & _ & H); [lra|]. exists L. split; assumption. }
    exists (f (take m z) (drop m z)).
    assert (H0 : 0 <= f (take m z) (drop m z)).
    { pose proof (Hmax (zeros N) (box_zero N 1 ltac:(lra))) as H. unfold zeros, N in H. rewrite repeat_app in H.
      rewrite take_app_alt, drop_app_alt in H by (symmetry; apply repeat_length). rewrite bil_zero_l in H by apply repeat_length. exact H. }
    split; [exact H0|]. intros x y Hx Hy. set (w := x ++ y).
    assert (Ew : size x y = dot w w) by (unfold w; rewrite dot_app by reflexivity; reflexivity).
    assert (Hwl : length w = N) by (unfold w; rewrite app_length; unfold N; lia).
    destruct (Rle_lt_dec (dot w w) 0) as [Hle|Hpos].
    - pose proof (dot_nonneg w). assert (Hx0 : x = zeros m).
      { rewrite <- Hx. apply dot_pos_zero. unfold size in Ew. pose proof (dot_nonneg x). pose proof (dot_nonneg y). lra. }
      rewrite Hx0, bil_zero_l by exact Hy. apply Rmult_le_pos; [exact H0|]. unfold size. pose proof (dot_nonneg (zeros m)). pose proof (dot_nonneg y). lra.
    - set (r := R_sqrt.sqrt (dot w w)). assert (Hr : 0 < r) by (apply sqrt_lt_R0; exact Hpos).
      assert (Hrr : r * r = dot w w) by (apply sqrt_sqrt; lra).
      assert (Hb : box N 1 (lscale (/ r) w)).
      { apply dot_box; [lra|rewrite lscale_length; exact Hwl|]. rewrite dot_scale, dot_scale_l, <- Hrr. right. field. lra. }
      apply Hmax in Hb. unfold w, lscale in Hb. rewrite map_app in Hb.
      rewrite take_app_alt, drop_app_alt in Hb by (rewrite map_length; congruence).
      change (map (Rmult (/ r)) x) with (lscale (/ r) x) in Hb. change (map (Rmult (/ r)) y) with (lscale (/ r) y) in Hb.
      rewrite (bil_scale_l _ _ _ Hf), (bil_scale_r _ _ _ Hf) in Hb by (rewrite ?lscale_length; assumption).
      rewrite Ew, <- Hrr. apply Rmult_le_reg_l with (/ r * / r); [apply Rmult_lt_0_compat; apply Rinv_0_lt_compat; exact Hr|].
      replace (/ r * / r * (f (take m z) (drop m z) * (r * r))) with (f (take m z) (drop m z)) by (field; lra). lra.
  Qed.
  Definition penal (x y : list R) : R := 2 * f x y - size x y * size x y.
  Lemma penal_max : { p : list R * list R | length p.1 = m /\ length p.2 = n /\ forall x y, length x = m -> length y = n -> penal x y <= penal p.1 p.2 }.
  Proof.
    destruct form_bound as (C & HC & Hb). set (B := 2 * C + 1).
    destruct (box_max N B (fun z => penal (take m z) (drop m z))) as (z & Hz & Hmax); [unfold B; lra| |].
    { assert (Ht : tame N B (fun z => penal (take m z) (drop m z))).
      { assert (HB : 0 <= B) by (unfold B; lra).
        apply (tame_ext _ _ (fun z => 2 * f (take m z) (drop m z) + (-1) * (dot z z * dot z z))).
        { intros z _. unfold penal. rewrite size_dot. ring. }
        apply tame_add; [apply tame_scale, (bil_tame _ _ _ Hf); exact HB|]. apply tame_scale.
        assert (Hd : tame N B (fun z => dot z z)) by (apply (tame_dot2 _ _ N); [intros z [H _]; exact H|intros; apply tame_nth; exact HB..]).
        apply tame_mul; exact Hd. }
      destruct Ht as (M & L & _ & HL & _ & H). exists L. split; assumption. }
    destruct (split_len z (proj1 Hz)) as [H1 H2]. exists (take m z, drop m z). split; [exact H1|]. split; [exact H2|]. cbn [fst snd]. intros x y Hx Hy.
    assert (Hw : length (x ++ y) = N) by (rewrite app_length; unfold N; lia).
    destruct (outside_box N B (x ++ y)) as [H|H]; [unfold B; lra|exact Hw| |].
    - apply Hmax in H. rewrite take_app_alt, drop_app_alt in H by congruence. exact H.
    - assert (H0 : 0 <= penal (take m z) (drop m z)).
      { pose proof (Hmax (zeros N) (box_zero N B ltac:(unfold B; lra))) as H'. unfold zeros, N in H'. rewrite repeat_app in H'.
        rewrite take_app_alt, drop_app_alt in H' by (symmetry; apply repeat_length). unfold penal in H' at 1.
        rewrite bil_zero_l in H' by apply repeat_length. unfold size in H'. rewrite !dot_zeros in H'. lra. }
      apply Rle_trans with 0; [|exact H0]. unfold penal. rewrite dot_app in H by reflexivity. change (dot x x + dot y y) with (size x y) in H.
      specialize (Hb x y Hx Hy). unfold B in H. nra.
  Qed.

  Section Max.
    Variables (u v : list R).
    Hypothesis Hu : length u = m.
    Hypothesis Hv : length v = n.
    Hypothesis Hmax : forall x y, length x = m -> length y = n -> penal x y <= penal u v.
    Let s := 2 * size u v.
    Lemma dot_line a b t : length a = length b -> dot (ladd a (lscale t b)) (ladd a (lscale t b)) = dot a a + t * (2 * dot a b + t * dot b b).
    Proof.
      intros E. rewrite dot_add, !dot_add_l by (rewrite ?ladd_length, ?lscale_length; congruence).
      rewrite !dot_scale, !dot_scale_l, (dot_comm b a). ring.
    Qed.
    Lemma slope_bound N0 P Y t : 0 <= N0 -> 0 <= Y -> -1 <= t <= 1 ->
      (N0 + t * (2 * P + t * Y)) * (N0 + t * (2 * P + t * Y)) - N0 * N0 <= 4 * N0 * P * t + (2 * N0 * Y + (2 * Rabs P + Y) * (2 * Rabs P + Y)) * (t * t).
    Proof.
      intros HN HY Ht. replace ((N0 + t * (2 * P + t * Y)) * (N0 + t * (2 * P + t * Y)) - N0 * N0) with (4 * N0 * P * t + (2 * N0 * Y + (2 * P + t * Y) * (2 * P + t * Y)) * (t * t)) by ring.
      apply Rplus_le_compat_l. apply Rmult_le_compat_r; [nra|]. apply Rplus_le_compat_l.
      pose proof (Rle_abs P). pose proof (Rle_abs (- P)) as H2. rewrite Rabs_Ropp in H2.
      assert (- Y <= t * Y <= Y) by (split; nra). assert (- (2 * Rabs P + Y) <= 2 * P + t * Y <= 2 * Rabs P + Y) by lra. nra.
    Qed.
    Lemma crit_r y : length y = n -> f u y = s * dot v y.
    Proof.
      intros Hy. assert (E : 2 * f u y - 4 * size u v * dot v y = 0); [|unfold s; lra].
      pose proof (dot_nonneg u) as Nu. pose proof (dot_nonneg v) as Nv. pose proof (dot_nonneg y) as Ny.
      apply slope_zero with (2 * size u v * dot y y + (2 * Rabs (dot v y) + dot y y) * (2 * Rabs (dot v y) + dot y y)).
      { pose proof (Rabs_pos (dot v y)). unfold size. apply Rplus_le_le_0_compat; [nra|]. apply Rmult_le_pos; lra. }
      intros t Ht. pose proof (Hmax u (ladd v (lscale t y)) Hu) as H. rewrite ladd_length in H by (rewrite lscale_length; congruence). specialize (H Hv).
      unfold penal in H. rewrite (bil_add_r _ _ _ Hf), (bil_scale_r _ _ _ Hf) in H by (rewrite ?lscale_length; assumption).
      unfold size in H at 1 2. rewrite dot_line in H by congruence.
      pose proof (slope_bound (size u v) (dot v y) (dot y y) t) as Hb. unfold size in *.
      specialize (Hb ltac:(lra) Ny Ht). set (K := _ * _ + (2 * Rabs _ + _) * _) in *. clearbody K.
      set (A := t * (2 * dot v y + t * dot y y)) in *. replace (dot u u + (dot v v + A)) with (dot u u + dot v v + A) in H by ring. lra.
    Qed.
    Lemma crit_l x : length x = m -> f x v = s * dot u x.
    Proof.
      intros Hx. assert (E : 2 * f x v - 4 * size u v * dot u x = 0); [|unfold s; lra].
      pose proof (dot_nonneg u) as Nu. pose proof (dot_nonneg v) as Nv. pose proof (dot_nonneg x) as Ny.
      apply slope_zero with (2 * size u v * dot x x + (2 * Rabs (dot u x) + dot x x) * (2 * Rabs (dot u x) + dot x x)).
      { pose proof (Rabs_pos (dot u x)). unfold size. apply Rplus_le_le_0_compat; [nra|]. apply Rmult_le_pos; lra. }
      intros t Ht. pose proof (Hmax (ladd u (lscale t x)) v) as H. rewrite ladd_length in H by (rewrite lscale_length; congruence). specialize (H Hu Hv).
      unfold penal in H. rewrite (bil_add_l _ _ _ Hf), (bil_scale_l _ _ _ Hf) in H by (rewrite ?lscale_length; assumption).
      unfold size in H at 1 2. rewrite dot_line in H by congruence.
      pose proof (slope_bound (size u v) (dot u x) (dot x x) t) as Hb. unfold size in *.
      specialize (Hb ltac:(lra) Ny Ht). set (K := _ * _ + (2 * Rabs _ + _) * _) in *. clearbody K.
      set (A := t * (2 * dot u x + t * dot x x)) in *. replace (dot u u + A + dot v v) with (dot u u + dot v v + A) in H by ring. lra.
    Qed.
    (** no greater value than at the origin: the form vanishes *)
    Lemma flat_zero : penal u v <= 0 -> forall x y, length x = m -> length y = n -> f x y = 0.
    Proof.
      intros H0. assert (H : forall x y, length x = m -> length y = n -> f x y <= 0).
      { intros x y Hx Hy. apply Rmult_le_reg_l with 2; [lra|]. rewrite Rmult_0_r.
        apply even_nonpos with (size x y * size x y); [pose proof (Rle_0_sqr (size x y)) as Hq; exact Hq|].
        intros t _. pose proof (Hmax (lscale t x) (lscale t y)) as H. rewrite !lscale_length in H. specialize (H Hx Hy). unfold penal in H.
        rewrite (bil_scale_l _ _ _ Hf), (bil_scale_r _ _ _ Hf) in H by (rewrite ?lscale_length; assumption).
        unfold size in H at 1 2. rewrite !dot_scale, !dot_scale_l in H. unfold penal in H0. unfold size in *. lra. }
      intros x y Hx Hy. pose proof (H x y Hx Hy) as H1. pose proof (H (lscale (-1) x) y) as H2. rewrite lscale_length in H2. specialize (H2 Hx Hy).
      rewrite (bil_scale_l _ _ _ Hf) in H2 by assumption. lra.
    Qed.
  End Max.
  (** a pair of singular vectors, or the form vanishes *)
  Definition pair_of (p : R * (list R * list R)) : Prop :=
    0 < p.1 /\ length p.2.1 = m /\ length p.2.2 = n /\ dot p.2.1 p.2.1 = 1 /\ dot p.2.2 p.2.2 = 1 /\
    (forall y, length y = n -> f p.2.1 y = p.1 * dot p.2.2 y) /\ (forall x, length x = m -> f x p.2.2 = p.1 * dot p.2.1 x).
  Lemma singular_pair : { p | pair_of p } + { forall x y, length x = m -> length y = n -> f x y = 0 }.
  Proof.
    destruct penal_max as [[u v] (Hu & Hv & Hmax)]. cbn [fst snd] in *.
    destruct (Rle_lt_dec (penal u v) 0) as [H0|H0]; [right; exact (flat_zero u v Hmax H0)|left].
    pose proof (crit_r u v Hu Hv Hmax) as Hr. pose proof (crit_l u v Hu Hv Hmax) as Hl.
    assert (HN : 0 < size u v).
    { pose proof (dot_nonneg u). pose proof (dot_nonneg v). destruct (Rle_lt_dec (size u v) 0) as [Hle|?]; [exfalso|assumption].
      unfold penal in H0. rewrite (Hr v Hv) in H0. unfold size in *. nra. }
    assert (Huv : dot u u = dot v v). { pose proof (Hr v Hv) as E. rewrite (Hl u Hu) in E. apply Rmult_eq_reg_l in E; [exact E|lra]. }
    set (r := R_sqrt.sqrt (dot u u)). assert (Hp : 0 < dot u u) by (unfold size in HN; lra).
    assert (Hrp : 0 < r) by (apply sqrt_lt_R0; exact Hp). assert (Hrr : r * r = dot u u) by (apply sqrt_sqrt; lra).
    exists (2 * size u v, (lscale (/ r) u, lscale (/ r) v)). unfold pair_of. cbn [fst snd]. rewrite !lscale_length, !dot_scale, !dot_scale_l, <- Huv, <- Hrr.
    split; [lra|]. split; [exact Hu|]. split; [exact Hv|]. split; [field; lra|]. split; [field; lra|]. split.
    - intros y Hy. rewrite (bil_scale_l _ _ _ Hf), dot_scale_l, Hr by assumption. ring.
    - intros x Hx. rewrite (bil_scale_r _ _ _ Hf), dot_scale_l, Hl by assumption. ring.
  Qed.
End Form.

(** orthonormal families *)
Fixpoint unit_vec (m i : nat) : list R :=
  match m, i with O, _ => [] | S m, O => 1 :: zeros m | S m, S i => 0 :: unit_vec m i end.
Lemma unit_vec_length m : forall i, length (unit_vec m i) = m.
Proof. induction m as [|m IH]; intros [|i]; cbn; [reflexivity..| |]; f_equal; [apply repeat_length|apply IH]. Qed.
Lemma dot_unit m : forall i u, length u = m -> dot u (unit_vec m i) = nth i u 0.
Proof.
  induction m as [|m IH]; intros i [|a u] E; try discriminate; [destruct i; reflexivity|]. injection E as E.
  destruct i as [|i]; cbn; [rewrite dot_zeros; ring|]. rewrite (IH i u E). ring.
Qed.
Lemma unit_unit m : forall i, (i < m)%nat -> dot (unit_vec m i) (unit_vec m i) = 1.
Proof. induction m as [|m IH]; intros [|i] H; cbn; try lia; [rewrite dot_zeros; ring|rewrite IH by lia; ring]. Qed.
Lemma trace m us : Forall (fun u => length u = m) us -> Forall (fun u => dot u u = 1) us ->
  total m (fun i => dot (coords us (unit_vec m i)) (coords us (unit_vec m i))) = INR (length us).
Proof.
  induction 1 as [|u us Hu H IH]; intros H1.
  - cbn. rewrite total_const. ring.
  - apply Forall_cons in H1 as [H0 H1]. specialize (IH H1). cbn [length]. rewrite S_INR, <- IH, <- H0.
    transitivity (total m (fun i => nth i u 0 * nth i u 0 + dot (coords us (unit_vec m i)) (coords us (unit_vec m i)))).
    + apply total_ext. intros i Hi. unfold coords at 1 2. cbn [map dot]. rewrite dot_unit by exact Hu. reflexivity.
    + rewrite total_add, dot_total, Hu. ring.
Qed.
Lemma orthonormal_unit us : orthonormal us -> Forall (fun u => dot u u = 1) us.
Proof. intros H. apply Forall_lookup_2. intros i u Hi. rewrite (H i i u u Hi Hi). rewrite decide_True; reflexivity. Qed.
Lemma orthonormal_snoc u us : orthonormal us -> dot u u = 1 -> Forall (fun w => dot w u = 0) us -> orthonormal (u :: us).
Proof.
  intros H H1 H0 [|i] [|j] a b Ha Hb; cbn in Ha, Hb.
  - injection Ha as <-. injection Hb as <-. rewrite H1. reflexivity.
  - injection Ha as <-. rewrite dot_comm. rewrite Forall_lookup in H0. rewrite (H0 j b Hb). reflexivity.
  - injection Hb as <-. rewrite Forall_lookup in H0. rewrite (H0 i a Ha). reflexivity.
  - rewrite (H i j a b Ha Hb). destruct (decide (i = j)), (decide (S i = S j)); congruence.
Qed.
Lemma ortho_count m us : Forall (fun u => length u = m) us -> orthonormal us -> (length us <= m)%nat.
Proof.
  intros H Ho. apply INR_le. rewrite <- (trace m us H (orthonormal_unit us Ho)). replace (INR m) with (total m (fun _ => 1)) by (rewrite total_const; ring).
  apply total_le. intros i Hi. rewrite <- (unit_unit m i Hi). apply (bessel m); [exact H|exact Ho|apply unit_vec_length].
Qed.
(** what remains of [x] without its part in the span *)
Definition rest (m : nat) (us : list (list R)) (x : list R) : list R := lsub x (combine m us (coords us x)).
Section Rest.
  Variables (m : nat) (us : list (list R)) (x : list R).
  Hypothesis H : Forall (fun u => length u = m) us.
  Hypothesis Ho : orthonormal us.
  Hypothesis Hx : length x = m.
  Lemma rest_length : length (rest m us x) = m.
  Proof. unfold rest, lsub. rewrite zip_with_length, combine_length by exact H. lia. Qed.
  Lemma rest_dot w : length w = m -> dot w (rest m us x) = dot w x - dot w (combine m us (coords us x)).
  Proof. intros Hw. unfold rest. rewrite lsub_add, dot_add, dot_scale by (rewrite lscale_length, combine_length by exact H; exact Hx). ring. Qed.
  Lemma rest_orth : Forall (fun w => dot w (rest m us x) = 0) us.
  Proof.
    apply Forall_lookup_2. intros i w Hi. pose proof (proj1 (Forall_lookup _ _) H i w Hi) as Hw. cbn in Hw. rewrite rest_dot by exact Hw.
    assert (E : coords us (combine m us (coords us x)) = coords us x) by (apply coords_combine; [exact H|exact Ho|apply coords_length]).
    apply (f_equal (fun l => l !! i)) in E. unfold coords in E. rewrite !list_lookup_fmap, Hi in E. cbn in E. injection E as E. fold (coords us x) in E. rewrite E. ring.
  Qed.
  Lemma rest_norm : dot (rest m us x) (rest m us x) = dot x x - dot (coords us x) (coords us x).
  Proof.
    rewrite rest_dot by apply rest_length. rewrite (dot_comm (rest m us x) x), rest_dot by exact Hx.
    rewrite (dot_comm (rest m us x) (combine _ _ _)), (coords_dot m) by (try apply rest_length; exact H).
    assert (E : coords us (rest m us x) = zeros (length us)).
    { pose proof rest_orth as Hr. unfold coords, zeros. clear -Hr. revert Hr. generalize (rest m us x). intros r Hr. induction Hr as [|w us Hw Hr IH]; cbn; [reflexivity|]. rewrite Hw, IH. reflexivity. }
    rewrite E, dot_zeros, (dot_comm x (combine _ _ _)), (coords_dot m) by assumption. ring.
  Qed.
End Rest.
(** a further unit vector orthogonal to a short family *)
Lemma further m us : Forall (fun u => length u = m) us -> orthonormal us -> (length us < m)%nat ->
  { u | length u = m /\ orthonormal (u :: us) }.
Proof.
  intros H Ho Hlt.
  destruct (total_pos m (fun i => 1 + - dot (coords us (unit_vec m i)) (coords us (unit_vec m i)))) as (i & Hi & Hp).
  { rewrite (total_add m (fun _ => 1) (fun i => - dot (coords us (unit_vec m i)) (coords us (unit_vec m i)))), total_const.
    assert (E : total m (fun i => - dot (coords us (unit_vec m i)) (coords us (unit_vec m i))) = - INR (length us)).
    { rewrite <- (trace m us H (orthonormal_unit us Ho)). apply total_opp. }
    rewrite E. apply lt_INR in Hlt. lra. }
  set (r := rest m us (unit_vec m i)). pose proof (unit_vec_length m i) as Hl.
  assert (Hr : 0 < dot r r) by (unfold r; rewrite rest_norm, unit_unit by assumption; lra).
  assert (Hq : 0 < R_sqrt.sqrt (dot r r)) by (apply sqrt_lt_R0; exact Hr). assert (Hqq : R_sqrt.sqrt (dot r r) * R_sqrt.sqrt (dot r r) = dot r r) by (apply sqrt_sqrt; lra).
  set (q := R_sqrt.sqrt (dot r r)) in *.
  exists (lscale (/ q) r). split; [rewrite lscale_length; apply rest_length; assumption|]. apply orthonormal_snoc; [exact Ho| |].
  - rewrite dot_scale, dot_scale_l, <- Hqq. field. lra.
  - eapply Forall_impl; [apply (rest_orth m us (unit_vec m i)); assumption|]. cbn. intros w Hw. rewrite dot_scale. unfold r. rewrite Hw. ring.
Qed.
(** a family of [m] vectors spans the space *)
Lemma full_span m us x : Forall (fun u => length u = m) us -> orthonormal us -> length us = m -> length x = m ->
  combine m us (coords us x) = x.
Proof.
  intros H Ho Hm Hx. set (r := rest m us x). destruct (Rle_lt_dec (dot r r) 0) as [Hle|Hpos].
  - pose proof (dot_nonneg r). assert (E : r = zeros (length r)) by (apply dot_pos_zero; lra). unfold r in E at 2. rewrite rest_length in E by assumption.
    unfold r, rest, lsub, zeros in E. pose proof (combine_length m us (coords us x) H) as Hl. revert E Hl. generalize (combine m us (coords us x)). rewrite <- Hx. clear.
    induction x as [|a x IH]; intros [|b l] E Hl; try discriminate; [reflexivity|]. cbn in E. injection E as E1 E2. f_equal; [lra|]. apply IH; [exact E2|cbn in Hl; lia].
  - exfalso. assert (Hq : 0 < R_sqrt.sqrt (dot r r)) by (apply sqrt_lt_R0; exact Hpos). assert (Hqq : R_sqrt.sqrt (dot r r) * R_sqrt.sqrt (dot r r) = dot r r) by (apply sqrt_sqrt; lra).
    set (q := R_sqrt.sqrt (dot r r)) in *.
    assert (Ho' : orthonormal (lscale (/ q) r :: us)).
    { apply orthonormal_snoc; [exact Ho| |].
      - rewrite dot_scale, dot_scale_l, <- Hqq. field. lra.
      - eapply Forall_impl; [apply (rest_orth m us x); assumption|]. cbn. intros w Hw. rewrite dot_scale. unfold r. rewrite Hw. ring. }
    apply (ortho_count m) in Ho'; [cbn in Ho'; lia|]. constructor; [rewrite lscale_length; apply rest_length; assumption|exact H].
Qed.

Lemma combine_cons n c cols y x : combine n (c :: cols) (y :: x) = ladd (lscale y c) (combine n cols x).
Proof.
  cbn [combine]. unfold ladd, lscale. generalize (combine n cols x). induction c as [|u c IH]; intros [|v l]; cbn; try reflexivity. rewrite IH. f_equal. ring.
Qed.
Lemma vanish_l m n f us : bilinear m n f -> Forall (fun u => length u = m) us -> (forall u y, u ∈ us -> length y = n -> f u y = 0) ->
  forall c y, length y = n -> f (combine m us c) y = 0.
Proof.
  intros Hf H H0 c y Hy. revert c. induction H as [|u us Hu H IH]; intros [|a c]; try exact (bil_zero_l m n f Hf y Hy).
  assert (Hl : length (combine m us c) = m) by (apply combine_length; exact H).
  rewrite combine_cons, (bil_add_l _ _ _ Hf) by (rewrite ?lscale_length; assumption). rewrite (bil_scale_l _ _ _ Hf) by assumption.
  rewrite (H0 u y) by (try apply elem_of_list_here; exact Hy).
  rewrite IH; [ring|]. intros w z Hw. apply H0. apply elem_of_list_further, Hw.
Qed.
Lemma bil_flip m n f : bilinear m n f -> bilinear n m (fun y x => f x y).
Proof.
  intros Hf. split; intros.
  - apply (bil_add_r _ _ _ Hf); assumption.
  - apply (bil_scale_r _ _ _ Hf); assumption.
  - apply (bil_add_l _ _ _ Hf); assumption.
  - apply (bil_scale_l _ _ _ Hf); assumption.
  - destruct (bil_tame _ _ _ Hf B H) as (M & L & HM & HL & Hb & Hl). exists M, L. split; [exact HM|]. split; [exact HL|].
    assert (Hsw : forall z, box (n + m) B z -> exists w, box (m + n) B w /\ take m w = drop n z /\ drop m w = take n z /\ w = drop n z ++ take n z).
    { intros z [Hz Hz']. exists (drop n z ++ take n z). split.
      - split; [rewrite app_length, drop_length, take_length; lia|]. apply Forall_app. split; [apply Forall_drop; exact Hz'|apply Forall_take; exact Hz'].
      - rewrite take_app_alt, drop_app_alt by (rewrite drop_length; lia). split; [reflexivity|]. split; reflexivity. }
    split.
    + intros z Hz. destruct (Hsw z Hz) as (w & Hw & E1 & E2 & _). rewrite <- E1, <- E2. apply Hb, Hw.
    + intros x y d Hd Hx Hy Hxy. destruct (Hsw x Hx) as (w & Hw & E1 & E2 & E3). destruct (Hsw y Hy) as (w' & Hw' & E1' & E2' & E3').
      rewrite <- E1, <- E2, <- E1', <- E2'. apply Hl; try assumption. rewrite E3, E3'. apply Forall2_app; [apply Forall2_drop; exact Hxy|apply Forall2_take; exact Hxy].
Qed.
Lemma bil_deflate m n f s u v : bilinear m n f -> length u = m -> length v = n -> bilinear m n (fun x y => f x y - s * (dot u x * dot v y)).
Proof.
  intros Hf Hu Hv. split; intros.
  - rewrite (bil_add_l _ _ _ Hf), dot_add by congruence. ring.
  - rewrite (bil_scale_l _ _ _ Hf), dot_scale by congruence. ring.
  - rewrite (bil_add_r _ _ _ Hf), dot_add by congruence. ring.
  - rewrite (bil_scale_r _ _ _ Hf), dot_scale by congruence. ring.
  - apply (tame_ext _ _ (fun z => f (take m z) (drop m z) + (- s) * (dot u (take m z) * dot v (drop m z)))); [intros; ring|].
    apply tame_add; [apply (bil_tame _ _ _ Hf); exact H|]. apply tame_scale, tame_mul; apply tame_dot; intros i; [apply tame_take|apply tame_drop]; exact H.
Qed.
(** the sum of the [s (u . x) (v . y)] *)
Definition terms (us vs : list (list R)) (ss : list R) (x y : list R) : R := dot (zip_with Rmult ss (coords vs y)) (coords us x).
Definition families (m n : nat) (us vs : list (list R)) : Prop :=
  Forall (fun u => length u = m) us /\ Forall (fun v => length v = n) vs /\ orthonormal us /\ orthonormal vs.
Lemma form_svd m n k : forall f us vs, bilinear m n f -> families m n us vs -> length us = length vs ->
  (forall u y, u ∈ us -> length y = n -> f u y = 0) -> (forall v x, v ∈ vs -> length x = m -> f x v = 0) -> (k + length us = min m n)%nat ->
  { d : svd R | length (left d) = k /\ length (sing d) = k /\ length (right d) = k /\ families m n (left d ++ us) (right d ++ vs) /\ Forall (fun s => 0 <= s) (sing d) /\
    forall x y, length x = m -> length y = n -> f x y = terms (left d) (right d) (sing d) x y }.
Proof.
  induction k as [|k IH]; intros f us vs Hf Hfam Huv H1 H2 Hk.
  - exists (Svd [] [] []). cbn [left right sing app length]. split; [reflexivity|]. split; [reflexivity|]. split; [reflexivity|]. split; [exact Hfam|]. split; [constructor|].
    intros x y Hx Hy. cbn. destruct Hfam as (Lu & Lv & Ou & Ov). destruct (decide (m <= n)%nat).
    + rewrite <- (full_span m us x Lu Ou) by lia. apply (vanish_l m n f us Hf Lu H1); exact Hy.
    + rewrite <- (full_span n vs y Lv Ov) by lia. apply (vanish_l n m (fun y x => f x y) vs (bil_flip _ _ _ Hf) Lv H2); exact Hx.
  - assert (Hstep : { p : R * (list R * list R) | 0 <= p.1 /\ families m n (p.2.1 :: us) (p.2.2 :: vs) /\
        (forall y, length y = n -> f p.2.1 y = p.1 * dot p.2.2 y) /\ (forall x, length x = m -> f x p.2.2 = p.1 * dot p.2.1 x) }).
    { destruct Hfam as (Lu & Lv & Ou & Ov). destruct (singular_pair m n f Hf) as [([s [u v]] & Hs & Hu & Hv & Hu1 & Hv1 & Hr & Hl)|Hz]; cbn [fst snd] in *.
      - exists (s, (u, v)). cbn [fst snd]. split; [lra|]. split; [|split; assumption]. split; [constructor; assumption|]. split; [constructor; assumption|].
        rewrite Forall_forall in Lu, Lv. split; apply orthonormal_snoc; try assumption; apply Forall_forall; intros w Hw.
        + pose proof (Hl w (Lu w Hw)) as E. rewrite (H1 w v Hw Hv) in E. rewrite dot_comm. apply Rmult_eq_reg_l with s; lra.
        + pose proof (Hr w (Lv w Hw)) as E. rewrite (H2 w u Hw Hu) in E. rewrite dot_comm. apply Rmult_eq_reg_l with s; lra.
      - destruct (further m us Lu Ou) as (u & Hu & Hou); [lia|]. destruct (further n vs Lv Ov) as (v & Hv & Hov); [lia|].
        exists (0, (u, v)). cbn [fst snd]. split; [lra|]. split; [split; [constructor; assumption|]; split; [constructor; assumption|]; split; assumption|].
        split; intros; rewrite Hz by assumption; ring. }
    destruct Hstep as ([s [u v]] & Hs & Hfam' & Hr & Hl). cbn [fst snd] in *.
    assert (Hu : length u = m) by (destruct Hfam' as (Lu & _); apply Forall_cons in Lu as [? _]; assumption).
    assert (Hv : length v = n) by (destruct Hfam' as (_ & Lv & _); apply Forall_cons in Lv as [? _]; assumption).
    destruct Hfam' as (Lu & Lv & Ou & Ov). destruct (orthonormal_cons u us Ou) as (Hu1 & Hu0 & _). destruct (orthonormal_cons v vs Ov) as (Hv1 & Hv0 & _).
    rewrite Forall_forall in Hu0, Hv0.
    destruct (IH (fun x y => f x y - s * (dot u x * dot v y)) (u :: us) (v :: vs)) as (d & Ld & Ls & Lr & Hfd & Hsd & Hd).
    + apply bil_deflate; assumption.
    + split; [exact Lu|]. split; [exact Lv|]. split; assumption.
    + cbn. congruence.
    + intros w y Hw Hy. apply elem_of_cons in Hw as [->|Hw]; [rewrite (Hr y Hy), Hu1; ring|]. rewrite (H1 w y Hw Hy), (Hu0 w Hw). ring.
    + intros w x Hw Hx. apply elem_of_cons in Hw as [->|Hw]; [rewrite (Hl x Hx), Hv1; ring|]. rewrite (H2 w x Hw Hx), (Hv0 w Hw). ring.
    + cbn [length]. lia.
    + exists (Svd (left d ++ [u]) (sing d ++ [s]) (right d ++ [v])). cbn [left right sing]. rewrite !app_length, <- !app_assoc. cbn [length app].
      split; [lia|]. split; [lia|]. split; [lia|]. split; [exact Hfd|]. split; [apply Forall_app; split; [exact Hsd|apply Forall_cons; split; [exact Hs|constructor]]|].
      intros x y Hx Hy. pose proof (Hd x y Hx Hy) as E. unfold terms in *. unfold coords in *. rewrite !map_app. cbn [map].
      rewrite zip_with_app by (rewrite map_length; lia). rewrite dot_app by (rewrite zip_with_length, !map_length; lia). cbn [zip_with dot]. rewrite <- E. ring.
Qed.

Lemma matrix_form m cols : Forall (fun c => length c = m) cols -> bilinear m (length cols) (fun x y => dot x (combine m cols y)).
Proof.
  intros H. split; intros.
  - rewrite dot_add_l by congruence. reflexivity.
  - rewrite dot_scale_l. reflexivity.
  - rewrite combine_add, dot_add by (rewrite ?combine_length by exact H; congruence). reflexivity.
  - rewrite combine_scale, dot_scale by (try exact H; congruence). reflexivity.
  - apply (tame_ext _ _ (fun z => dot (coords cols (take m z)) (drop m z))).
    { intros z [Hz _]. symmetry. rewrite dot_comm, (coords_dot m) by (try exact H; rewrite take_length; lia). apply dot_comm. }
    apply (tame_dot2 _ _ (length cols)); [intros; apply coords_length| |intros; apply tame_drop; assumption].
    intros i. generalize (m + length cols)%nat. intros N. revert i. clear H. induction cols as [|c cols IH]; intros [|i]; unfold coords; cbn [map nth]; try apply tame_const.
    + apply tame_dot. intros j. apply tame_take. assumption.
    + apply IH.
Qed.
Lemma matrix_svd J : Forall (fun c => length c = m_rows J) (m_cols J) ->
  { d | svd_of J d /\ length (sing d) = min (m_rows J) (length (m_cols J)) }.
Proof.
  intros H. set (m := m_rows J) in *. set (n := length (m_cols J)).
  destruct (form_svd m n (min m n) (fun x y => dot x (combine m (m_cols J) y)) [] []) as (d & Ld & Ls & Lr & Hfam & Hs & Hd).
  - apply matrix_form. exact H.
  - split; [constructor|]. split; [constructor|]. split; intros i j a b Ha; destruct i; discriminate.
  - reflexivity.
  - intros u y Hu. apply elem_of_nil in Hu. contradiction.
  - intros u y Hu. apply elem_of_nil in Hu. contradiction.
  - cbn. lia.
  - exists d. split; [|exact Ls]. rewrite !app_nil_r in Hfam. destruct Hfam as (Lu & Lv & Ou & Ov).
    split; [congruence|]. split; [congruence|]. split; [exact Lu|]. split; [exact Lv|]. split; [exact Ou|]. split; [exact Ov|]. split; [exact Hs|].
    intros y Hy. change (map (fun v => dot v y) (right d)) with (coords (right d) y). unfold act. fold m.
    set (a := combine m (m_cols J) y). set (b := combine m (left d) (zip_with Rmult (sing d) (coords (right d) y))).
    assert (La : length a = m) by (apply combine_length; exact H). assert (Lb : length b = m) by (apply combine_length; exact Lu).
    assert (Hab : forall x, length x = m -> dot x a = dot x b).
    { intros x Hx. unfold a. rewrite (Hd x y Hx Hy). unfold b. rewrite (dot_comm x), (coords_dot m) by assumption. reflexivity. }
    assert (Hz : dot (lsub a b) (lsub a b) = 0).
    { assert (Ll : length (lsub a b) = m) by (unfold lsub; rewrite zip_with_length; lia).
      rewrite (lsub_add a b) at 2. rewrite dot_add, dot_scale, Hab by (rewrite ?lscale_length; congruence). ring. }
    apply dot_pos_zero in Hz. clear Hab Hd. clearbody a b. rewrite <- Lb in La. clear -Hz La. unfold lsub, zeros in Hz. revert b La Hz.
    induction a as [|p a IH]; intros [|q b] E Hz; try discriminate; [reflexivity|]. cbn in *. injection Hz as E1 E2. f_equal; [lra|]. apply IH; [lia|exact E2].
Qed.
