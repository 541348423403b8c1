(** * Functions on a box attain their maximum *)
From Coq Require Import Reals Lra Lia.
From stdpp Require Import gmap.
Local Open Scope R_scope.

Definition box (n : nat) (B : R) (x : list R) : Prop := length x = n /\ Forall (fun a => - B <= a <= B) x.
(** bounded and Lipschitz continuous on the box *)
Definition lipschitz (n : nat) (B : R) (f : list R -> R) (L : R) : Prop :=
  forall x y d, 0 <= d -> box n B x -> box n B y -> Forall2 (fun a b => Rabs (a - b) <= d) x y -> Rabs (f x - f y) <= L * d.
Definition tame (n : nat) (B : R) (f : list R -> R) : Prop :=
  exists M L, 0 <= M /\ 0 <= L /\ (forall x, box n B x -> Rabs (f x) <= M) /\ lipschitz n B f L.

Definition clip (B t : R) : R := Rmax (- B) (Rmin B t).
Lemma clip_in B t : 0 <= B -> - B <= clip B t <= B.
Proof. intros H. unfold clip, Rmax, Rmin. repeat destruct (Rle_dec _ _); lra. Qed.
Lemma clip_id B t : - B <= t <= B -> clip B t = t.
Proof. intros H. unfold clip, Rmax, Rmin. repeat destruct (Rle_dec _ _); lra. Qed.
Lemma clip_close B t t' : 0 <= B -> Rabs (clip B t - clip B t') <= Rabs (t - t').
Proof. intros H. unfold clip, Rmax, Rmin. repeat destruct (Rle_dec _ _); unfold Rabs; repeat destruct (Rcase_abs _); lra. Qed.

Lemma box_cons n B t x : - B <= t <= B -> box n B x -> box (S n) B (t :: x).
Proof. intros H [H1 H2]. split; [cbn; congruence|constructor; assumption]. Qed.
Lemma box_zero n B : 0 <= B -> box n B (repeat 0 n).
Proof. intros H. split; [apply repeat_length|]. apply Forall_forall. intros a Ha. apply elem_of_list_In, repeat_spec in Ha. subst. lra. Qed.
Lemma close_refl d x : 0 <= d -> Forall2 (fun a b => Rabs (a - b) <= d) x x.
Proof. intros H. induction x; constructor; [|assumption]. replace (a - a) with 0 by ring. rewrite Rabs_R0. exact H. Qed.

(** the greatest place at which a Lipschitz function on an interval is maximal *)
Lemma interval_max (B : R) (g : R -> R) : 0 <= B -> (exists L, 0 <= L /\ forall t t', Rabs (g t - g t') <= L * Rabs (t - t')) ->
  { t | - B <= t <= B /\ forall t', - B <= t' <= B -> g t' <= g t }.
Proof.
  intros HB HLg.
  set (E := fun t => - B <= t <= B /\ forall t', - B <= t' <= B -> g t' <= g t).
  assert (Hc : forall c, - B <= c <= B -> continuity_pt g c).
  { destruct HLg as (L & HL & Hg). intros c _ eps He. exists (eps / (L + 1)). split; [apply Rdiv_lt_0_compat; lra|].
    intros x [_ Hx]. unfold dist in *. cbn in *. unfold R_dist in *. eapply Rle_lt_trans; [apply Hg|].
    apply Rle_lt_trans with ((L + 1) * Rabs (x - c)); [pose proof (Rabs_pos (x - c)); nra|].
    apply Rlt_le_trans with ((L + 1) * (eps / (L + 1))); [apply Rmult_lt_compat_l; lra|]. right. field. lra. }
  assert (Hex : exists t, E t).
  { destruct (continuity_ab_maj g (- B) B) as (t & H1 & H2); [lra|exact Hc|]. exists t. split; assumption. }
  assert (Hbd : bound E) by (exists B; intros t [H _]; lra).
  destruct (completeness E Hbd Hex) as [s [Hub Hlub]]. exists s.
  assert (Hs : - B <= s <= B).
  { destruct Hex as [t Ht]. pose proof (Hub t Ht). destruct Ht as [Ht _]. split; [lra|]. apply Hlub. intros x [Hx _]. lra. }
  split; [exact Hs|]. intros t' Ht'. destruct (Rle_lt_dec (g t') (g s)) as [H|H]; [exact H|exfalso]. destruct HLg as (L & HL & Hg).
  set (e := (g t' - g s) / (L + 1)). assert (He : 0 < e) by (apply Rdiv_lt_0_compat; lra).
  assert (Hall : is_upper_bound E (s - e)).
  { intros t Ht. pose proof (Hub t Ht) as Hle. destruct (Rle_lt_dec t (s - e)) as [?|Hn]; [assumption|exfalso].
    pose proof (proj2 Ht t' Ht') as H1. pose proof (Hg t s) as H2. rewrite (Rabs_left1 (t - s)) in H2 by lra.
    pose proof (Rle_abs (g t - g s)) as H3.
    assert (H4 : L * - (t - s) <= L * e) by (apply Rmult_le_compat_l; lra).
    assert (H5 : (L + 1) * e = g t' - g s) by (unfold e; field; lra). nra. }
  pose proof (Hlub _ Hall). lra.
Qed.

Lemma box_max n : forall B (f : list R -> R), 0 <= B -> (exists L, 0 <= L /\ lipschitz n B f L) ->
  { m | box n B m /\ forall x, box n B x -> f x <= f m }.
Proof.
  induction n as [|n IH]; intros B f HB HLf.
  { exists []. split; [split; [reflexivity|constructor]|]. intros x [Hx _]. destruct x; [lra|discriminate]. }
  assert (IHt : forall t, { m | box n B m /\ forall x, box n B x -> f (clip B t :: x) <= f (clip B t :: m) }).
  { intros t. apply (IH B); [assumption|]. destruct HLf as (L & HL & Hf). exists L. split; [exact HL|]. intros x y d H0 Hx Hy Hd. apply Hf; [exact H0|apply box_cons; auto using clip_in..|].
    constructor; [|exact Hd]. replace (clip B t - clip B t) with 0 by ring. rewrite Rabs_R0. exact H0. }
  set (g := fun t => f (clip B t :: proj1_sig (IHt t))).
  assert (Hhalf : exists L, 0 <= L /\ forall t t', g t - g t' <= L * Rabs (t - t')).
  { destruct HLf as (L & HL & Hf). exists L. split; [exact HL|]. intros t t'. unfold g. destruct (IHt t) as (m & Hm & Hmax). destruct (IHt t') as (m' & Hm' & Hmax'). cbn [proj1_sig].
    apply Rle_trans with (f (clip B t :: m) - f (clip B t' :: m)); [pose proof (Hmax' m Hm); lra|].
    eapply Rle_trans; [apply Rle_abs|]. apply Hf; [apply Rabs_pos|apply box_cons; auto using clip_in..|].
    constructor; [apply clip_close; exact HB|apply close_refl, Rabs_pos]. }
  destruct (interval_max B g HB) as (t & Ht & Hmax).
  { destruct Hhalf as (L & HL & Hhalf). exists L. split; [exact HL|]. intros t t'. pose proof (Hhalf t t'). pose proof (Hhalf t' t) as H'. rewrite (Rabs_minus_sym t' t) in H'. apply Rabs_le. lra. }
  exists (t :: proj1_sig (IHt t)). split.
  - apply box_cons; [exact Ht|]. exact (proj1 (proj2_sig (IHt t))).
  - intros [|a x] [Hx Hb]; [discriminate|]. injection Hx as Hx. apply Forall_cons in Hb as [Ha Hb]. clear Hhalf.
    specialize (Hmax a Ha). unfold g in Hmax. destruct (IHt a) as (ma & Hma & Hmaxa). destruct (IHt t) as (mt & Hmt & Hmaxt). cbn [proj1_sig] in *.
    rewrite (clip_id B a Ha) in Hmax, Hmaxa. rewrite (clip_id B t Ht) in Hmax. specialize (Hmaxa x (conj Hx Hb)). lra.
Qed.

(** sums and products *)
Lemma tame_const n B c : tame n B (fun _ => c).
Proof. exists (Rabs c), 0. split; [apply Rabs_pos|]. split; [lra|]. split; [intros; lra|]. intros x y d Hd _ _ _. replace (c - c) with 0 by ring. rewrite Rabs_R0. lra. Qed.
Lemma tame_nth n B i : 0 <= B -> tame n B (fun x => nth i x 0).
Proof.
  intros HB. exists B, 1. split; [exact HB|]. split; [lra|]. split.
  - intros x [_ Hx]. revert i. induction Hx as [|a x Ha Hx IH]; intros [|i]; cbn; try (rewrite Rabs_R0; exact HB); [|apply IH]. apply Rabs_le. exact Ha.
  - intros x y d Hd _ _ Hxy. rewrite Rmult_1_l. revert i. induction Hxy as [|a b x y Ha Hxy IH]; intros [|i]; cbn; try (replace (0 - 0) with 0 by ring; rewrite Rabs_R0; exact Hd); [exact Ha|apply IH].
Qed.
Lemma tame_add n B f g : tame n B f -> tame n B g -> tame n B (fun x => f x + g x).
Proof.
  intros (M & L & HM & HL & Hf & Hlf) (M' & L' & HM' & HL' & Hg & Hlg). exists (M + M'), (L + L'). split; [lra|]. split; [lra|]. split.
  - intros x Hx. eapply Rle_trans; [apply Rabs_triang|]. specialize (Hf x Hx). specialize (Hg x Hx). lra.
  - intros x y d Hd Hx Hy Hxy. replace (f x + g x - (f y + g y)) with ((f x - f y) + (g x - g y)) by ring.
    eapply Rle_trans; [apply Rabs_triang|]. specialize (Hlf x y d Hd Hx Hy Hxy). specialize (Hlg x y d Hd Hx Hy Hxy). lra.
Qed.
Lemma tame_mul n B f g : tame n B f -> tame n B g -> tame n B (fun x => f x * g x).
Proof.
  intros (M & L & HM & HL & Hf & Hlf) (M' & L' & HM' & HL' & Hg & Hlg). exists (M * M'), (M * L' + L * M').
  split; [apply Rmult_le_pos; assumption|]. split; [pose proof (Rmult_le_pos _ _ HM HL'); pose proof (Rmult_le_pos _ _ HL HM'); lra|]. split.
  - intros x Hx. rewrite Rabs_mult. apply Rmult_le_compat; auto using Rabs_pos.
  - intros x y d Hd Hx Hy Hxy. replace (f x * g x - f y * g y) with (f x * (g x - g y) + (f x - f y) * g y) by ring.
    eapply Rle_trans; [apply Rabs_triang|]. rewrite !Rabs_mult, Rmult_plus_distr_r. apply Rplus_le_compat.
    + rewrite Rmult_assoc. apply Rmult_le_compat; auto using Rabs_pos.
    + replace (L * M' * d) with (L * d * M') by ring. apply Rmult_le_compat; auto using Rabs_pos.
Qed.
Lemma tame_ext n B f g : (forall x, box n B x -> f x = g x) -> tame n B f -> tame n B g.
Proof.
  intros H (M & L & HM & HL & Hf & Hl). exists M, L. split; [exact HM|]. split; [exact HL|]. split.
  - intros x Hx. rewrite <- H by exact Hx. auto.
  - intros x y d Hd Hx Hy Hxy. rewrite <- !H by assumption. auto.
Qed.
Lemma tame_scale n B c f : tame n B f -> tame n B (fun x => c * f x).
Proof. apply tame_mul, tame_const. Qed.
