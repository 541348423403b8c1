(** * An iteration of the float solver on an arm that stands for an ideal one *)
From Coq Require Import String Reals ZArith Lra Lia Psatz Sorting.Sorted Floats.SpecFloat.
From Flocq Require Import Core IEEE754.BinarySingleNaN.
From stdpp Require Import gmap.
From Verif Require ReachProofs.
From Verif Require Import Scalar ScalarR ScalarF Geometry Joint Link Prog NodeM ChainM FuncsM IkM LuM RunLemmas
  SpecNode SpecGraph SpecChain GraphProofs SpecFK FKProofs SpecGeom RGeom GeomProofs JacReal SpecReach IkProofs SpecIk StepProofs ChainProofs
  SpecStep SpecLin SpecValues SpecFloatErr FloatErr FloatBack SpecAcc AccProofs AccProofs2 SpecJacAcc AccJac SpecSolved SolvedProofs SolvedProofs2
  LinAlgR LinArm TrajProofs SpecLuAcc LuAcc PropLu PropLuAcc PropSolved ConvGeom ConvStep ConvIk SpecConvAcc FConvJac FConvCore.
Local Open Scope R_scope.

(** ** joints on the heap *)
Section Heap.
  Context (prec emax : Z) (alpha : R).
  (** the movable joints' positions *)
  Lemma movable_vals (h : gmap nat (node spec_float)) l xs js : joints_of h l xs -> Forall2 (stands_for prec emax alpha) xs js ->
    Forall2 (fun a p => exists n, h !! a = Some n /\ val prec emax (j_position (n_joint n)) p) (List.filter (node_movable h) l) (posns js).
  Proof.
    intros H. revert js. induction H as [|a x l xs (n & Hn & ->) H IH]; intros js Hs; inversion Hs as [|? j ? js' Hj Hs']; subst; [constructor|].
    cbn [List.filter posns]. unfold node_movable at 1. rewrite Hn. destruct Hj as (Ht & Hp & _).
    destruct (j_type (n_joint n)), (j_type j); try contradiction; [apply IH, Hs'|constructor; [eauto|apply IH, Hs']..].
  Qed.
  (** the same joints at other positions *)
  Lemma moved_stand (h h' : gmap nat (node spec_float)) l : forall xs js q', joints_of h l xs -> Forall2 (stands_for prec emax alpha) xs js -> frozen h h' ->
    (forall a, a ∈ l -> node_movable h a = false -> position_at h' a = position_at h a) ->
    Forall2 (fun a p => exists n, h' !! a = Some n /\ val prec emax (j_position (n_joint n)) p) (List.filter (node_movable h) l) q' ->
    exists xs' js', joints_of h' l xs' /\ Forall2 (stands_for prec emax alpha) xs' js' /\ Forall2 at_other_position js js' /\ posns js' = q'.
  Proof.
    intros xs js q' H. revert js q'. induction H as [|a x l xs (n & Hn & ->) H IH]; intros js q' Hs Hf Ho Hq; inversion Hs as [|? j ? js0 Hj Hs']; subst.
    - inversion Hq. exists [], []. repeat split; constructor.
    - destruct (frozen_at h h' a n Hf Hn) as (n' & Hn' & E). apply bare_eq in E as (_ & Et & _ & _ & Eo & _).
      assert (Ho' : forall b, b ∈ l -> node_movable h b = false -> position_at h' b = position_at h b) by (intros b Hb; apply Ho; set_solver).
      destruct Hj as (A & B & C & D).
      assert (Hst : forall p, val prec emax (j_position (n_joint n')) p ->
        stands_for prec emax alpha (n_joint n') (Joint (j_name j) (j_type j) p (j_velocity j) (j_limits j) (j_origin j) None None)).
      { intros p Hp. split; [rewrite Et; exact A|]. split; [exact Hp|]. rewrite Eo. split; [exact C|exact D]. }
      cbn [List.filter] in Hq. unfold node_movable in Hq at 1. rewrite Hn in Hq.
      assert (Hmv : forall p q, j_type j <> Fixed -> (exists n, h' !! a = Some n /\ val prec emax (j_position (n_joint n)) p) ->
        Forall2 (fun a p => exists n, h' !! a = Some n /\ val prec emax (j_position (n_joint n)) p) (List.filter (node_movable h) l) q ->
        exists xs' js', joints_of h' (a :: l) xs' /\ Forall2 (stands_for prec emax alpha) xs' js' /\ Forall2 at_other_position (j :: js0) js' /\ posns js' = p :: q).
      { intros p q Hne (n2 & Hn2 & Hp) Hq'. assert (n2 = n') as -> by congruence. destruct (IH js0 q Hs' Hf Ho' Hq') as (xs' & js' & H1 & H2 & H3 & H4).
        exists (n_joint n' :: xs'), (Joint (j_name j) (j_type j) p (j_velocity j) (j_limits j) (j_origin j) None None :: js').
        split; [constructor; [eauto|exact H1]|]. split; [constructor; [apply Hst, Hp|exact H2]|]. split; [constructor; [split; reflexivity|exact H3]|].
        cbn [posns j_type j_position]. rewrite H4. destruct (j_type j); [contradiction| |]; reflexivity. }
      destruct (j_type (n_joint n)) eqn:Ety, (j_type j) eqn:Etj; try contradiction.
      + destruct (IH js0 q' Hs' Hf Ho' Hq) as (xs' & js' & H1 & H2 & H3 & H4).
        exists (n_joint n' :: xs'), (Joint (j_name j) (j_type j) (j_position j) (j_velocity j) (j_limits j) (j_origin j) None None :: js').
        split; [constructor; [eauto|exact H1]|]. split; [constructor; [|exact H2]|]; [|split; [constructor; [split; reflexivity|exact H3]|]].
        * rewrite Etj. apply Hst. specialize (Ho a ltac:(set_solver)). unfold node_movable in Ho. rewrite Hn, Ety in Ho. specialize (Ho eq_refl).
          unfold position_at in Ho. rewrite Hn, Hn' in Ho. cbn in Ho. injection Ho as ->. exact B.
        * cbn [posns j_type]. rewrite Etj. exact H4.
      + inversion Hq as [|? p ? q Hp Hq' E1 E2]; subst. apply Hmv; [discriminate|exact Hp|exact Hq'].
      + inversion Hq as [|? p ? q Hp Hq' E1 E2]; subst. apply Hmv; [discriminate|exact Hp|exact Hq'].
  Qed.
End Heap.

(** the constrained part of a float difference *)
Lemma flagged_position_val prec emax c x y z a b d (x' y' z' : R) : position_only c ->
  (position_x c = true -> val prec emax x x') -> (position_y c = true -> val prec emax y y') -> (position_z c = true -> val prec emax z z') ->
  list_val prec emax (flagged (flags c) [x; y; z; a; b; d]) (flagged (flags c) [x'; y'; z'; 0; 0; 0]).
Proof.
  intros (Ra & Rb & Rc) Hx Hy Hz. unfold flags, list_val. rewrite Ra, Rb, Rc.
  destruct (position_x c), (position_y c), (position_z c); cbn [flagged]; repeat (apply Forall2_cons; split); auto; try apply Forall2_nil; exact I.
Qed.
(** a computed answer of a system near [J2 x = b] *)
Lemma near_residual prec emax (Hp : Prec_gt_0 prec) (Hm : Prec_lt_emax prec emax) (L : libm) (Hprec : (11 <= prec)%Z) n m J1 J2 eps a be bf b lam :
  let u := unit_roundoff prec in
  mat_val prec emax m J1 -> shaped J1 n n -> shaped J2 n n -> 0 <= eps -> near_cols eps (m_cols J1) (m_cols J2) -> entries_le a J2 ->
  list_val prec emax bf b -> length b = n -> all_le be b -> fits_lu prec emax n (a + eps) be ->
  expands lam J2 -> 30 * 3 ^ n * u * (a + eps) + eps <= lam -> fits_answer emax n (a + eps) be (lam - eps) ->
  exists xf x, @na_lu_solve _ (FScalar prec emax L) m bf = Some xf /\ list_val prec emax xf x /\ length x = n /\
    all_le (6 * 3 ^ n * u * (be + (a + eps) * (norm1 x + tiny emax)) + eps * norm1 x) (diff (act J2 x) b).
Proof.
  intros u HV S1 S2 He Hn Ha Hb Lb Hbe Hfit Hex Hlam Hans.
  pose proof (near_entries J1 J2 eps Hn a Ha) as Ha1. pose proof (near_expands n J1 J2 eps He S1 S2 Hn lam Hex) as Hex1.
  destruct (C76_answer prec emax Hp Hm L Hprec n m J1 (a + eps) be bf b HV S1 Ha1 Hb Lb Hbe Hfit (lam - eps) Hex1 ltac:(fold u; lra) Hans) as (xf & x & E & Hx & _).
  exists xf, x. split; [exact E|]. split; [exact Hx|].
  pose proof (C76_residual prec emax Hp Hm L Hprec n m J1 (a + eps) be bf b HV S1 Ha1 Hb Lb Hbe Hfit xf x E Hx) as R. fold u in R.
  split.
  { rewrite <- (Forall2_length _ _ _ Hx). destruct (bridge_square prec emax L n m J1 (a + eps) be bf b HV S1 Ha1 Hb Lb Hbe) as (Er & Sq & Lbf & _).
    rewrite (bridge_gauss prec emax L n m J1 (a + eps) be bf b HV S1 Ha1 Hb Lb Hbe) in E. apply (gauss_length prec emax L n (m_cols m) bf xf (proj1 Sq) Lbf E). }
  pose proof (near_len n J1 x S1) as L1. pose proof (near_len n J2 x S2) as L2.
  assert (L3 : length (diff (act J1 x) b) = n) by (unfold diff; rewrite zip_with_length; lia).
  assert (L4 : length (diff (act J2 x) b) = n) by (unfold diff; rewrite zip_with_length; lia).
  apply (all_le_nth _ _ n L4). intros i Hi. pose proof (proj1 (all_le_nth _ _ n L3) R i Hi) as R1. pose proof (near_act n J1 J2 eps He S1 S2 Hn x i Hi) as R2.
  unfold diff in *. rewrite (nth_zipw 0 Rminus) in R1 |- * by lia.
  replace (nth i (act J2 x) 0 - nth i b 0) with ((nth i (act J1 x) 0 - nth i b 0) + - (nth i (act J1 x) 0 - nth i (act J2 x) 0)) by ring.
  eapply Rle_trans; [apply Rabs_triang|]. rewrite Rabs_Ropp. lra.
Qed.
(** a finite float inside finite limits is not clamped *)
Lemma clamp_inside prec emax L lim y p lo hi : val prec emax y p -> val prec emax (rmin lim) lo -> val prec emax (rmax lim) hi -> lo <= p <= hi ->
  @clamp _ (FScalar prec emax L) lim y = y.
Proof.
  intros Hy Hlo Hhi H. unfold clamp, sgt. cbn [slt FScalar].
  destruct (SFltb y (rmin lim)) eqn:E1; [apply (gt_fwd prec emax _ _ p lo Hy Hlo) in E1; lra|].
  destruct (SFltb (rmax lim) y) eqn:E2; [apply (gt_fwd prec emax _ _ hi p Hhi Hy) in E2; lra|]. reflexivity.
Qed.

(** ** the numbers *)
Section Numbers.
  Variables (u mu th Lr Q lam m E eps nu : R).
  Hypothesis Hu : 0 < u <= / 2048.
  Hypothesis Hmu : 0 < mu <= 2 * u.
  Hypothesis Hth : 1536 * u <= th.
  Hypothesis HL : 1 <= Lr.
  Hypothesis HQ : 1 <= Q.
  Hypothesis Hlam : 0 < lam <= 1.
  Hypothesis Hm : 0 < m <= 1.
  Hypothesis Heps : eps = 3 * th * Lr.
  Hypothesis Hnu : nu = eps * Q.
  Hypothesis Hsmall : 2048 * Lr * nu <= m * (lam * lam).
  Hypothesis HE0 : 0 <= E.
  Hypothesis HE : 32 * Lr * E <= lam * lam.
  Lemma num_basic : 0 < eps /\ eps <= nu /\ 2048 * nu <= lam * lam /\ lam * lam <= lam /\ 32 * E <= lam * lam /\ 3 * th <= eps /\ mu <= eps /\ 2048 * Lr * nu <= lam * lam.
  Proof.
    assert (0 < th * Lr) by (apply Rmult_lt_0_compat; lra). assert (th * 1 <= th * Lr) by (apply Rmult_le_compat_l; lra).
    assert (E1 : 0 < eps) by lra. assert (eps * 1 <= eps * Q) by (apply Rmult_le_compat_l; lra). assert (E2 : eps <= nu) by lra.
    assert (0 < lam * lam) by (apply Rmult_lt_0_compat; lra). assert (m * (lam * lam) <= 1 * (lam * lam)) by (apply Rmult_le_compat_r; lra).
    assert (lam * lam <= 1 * lam) by (apply Rmult_le_compat_r; lra). assert (1 * nu <= Lr * nu) by (apply Rmult_le_compat_r; lra).
    assert (1 * E <= Lr * E) by (apply Rmult_le_compat_r; lra). repeat split; lra.
  Qed.
  Lemma num_lam : 30 * 27 * u * (Lr + eps) + eps <= lam.
  Proof.
    destruct num_basic as (B1 & B2 & B3 & B4 & B5 & B6 & B7 & B8). assert (u * (Lr + eps) <= u * (2 * Lr)) by (apply Rmult_le_compat_l; lra).
    assert (1536 * u * Lr <= th * Lr) by (apply Rmult_le_compat_r; lra). lra.
  Qed.
  Lemma num_x P X rho : 1 <= P <= 27 -> 0 <= X -> rho = 6 * P * u * (E + 3 * eps + (Lr + eps) * (X + mu)) -> lam * X <= E + 3 * eps + (rho + eps * X) ->
    lam * X <= 2 * (E + 5 * eps) /\ X <= 1 /\ 0 <= rho <= eps.
  Proof.
    intros HP HX Er Hx. destruct num_basic as (B1 & B2 & B3 & B4 & B5 & B6 & B7 & B8).
    assert (A1 : (Lr + eps) * (X + mu) <= 2 * Lr * (X + 1)) by (apply Rmult_le_compat; lra).
    assert (A0 : 0 <= (Lr + eps) * (X + mu)) by (apply Rmult_le_pos; lra).
    assert (A2 : E + 3 * eps + (Lr + eps) * (X + mu) <= Lr * (3 + 2 * X)) by (replace (Lr * (3 + 2 * X)) with (Lr + 2 * Lr * (X + 1)) by ring; lra).
    assert (A3 : 6 * P * u * (E + 3 * eps + (Lr + eps) * (X + mu)) <= 162 * u * (Lr * (3 + 2 * X))).
    { apply Rmult_le_compat; [|lra| |exact A2].
      - assert (0 <= P * u) by (apply Rmult_le_pos; lra). lra.
      - assert (P * u <= 27 * u) by (apply Rmult_le_compat_r; lra). lra. }
    assert (A4 : 1536 * u * (Lr * (3 + 2 * X)) <= th * (Lr * (3 + 2 * X))) by (apply Rmult_le_compat_r; [apply Rmult_le_pos; lra|lra]).
    replace (th * (Lr * (3 + 2 * X))) with (eps / 3 * (3 + 2 * X)) in A4 by (rewrite Heps; field).
    assert (R0 : 0 <= rho).
    { rewrite Er. assert (0 <= P * u) by (apply Rmult_le_pos; lra). apply Rmult_le_pos; [lra|]. lra. }
    assert (A5 : rho <= eps * (3 + 2 * X) / 28) by lra.
    assert (eps * X <= lam / 2048 * X) by (apply Rmult_le_compat_r; lra). assert (0 <= lam * X) by (apply Rmult_le_pos; lra).
    assert (X1 : lam * X <= 2 * (E + 5 * eps)) by lra.
    assert (X2 : X <= 1). { apply Rmult_le_reg_l with lam; lra. }
    split; [exact X1|]. split; [exact X2|]. split; [exact R0|]. assert (eps * X <= eps * 1) by (apply Rmult_le_compat_l; lra). lra.
  Qed.
  Lemma num_kap X k : 0 <= X <= 1 -> k <= 3 * u * X + 3 * (u * Q + 2 * mu) -> k <= nu /\ Lr * k <= nu.
  Proof.
    intros HX Hk. destruct num_basic as (B1 & B2 & B3 & B4 & B5 & B6 & B7 & B8).
    assert (u * 1 <= u * Q) by (apply Rmult_le_compat_l; lra). assert (u * X <= u * 1) by (apply Rmult_le_compat_l; lra).
    assert (k <= 18 * u * Q) by lra. assert (1536 * u * Q <= th * Q) by (apply Rmult_le_compat_r; lra).
    assert (0 < th * Q) by (apply Rmult_lt_0_compat; lra).
    assert (Lr * k <= Lr * (th * Q)) by (apply Rmult_le_compat_l; lra). replace (Lr * (th * Q)) with (nu / 3) in * by (rewrite Hnu, Heps; field).
    assert (1 * (th * Q) <= Lr * (th * Q)) by (apply Rmult_le_compat_r; lra). replace (Lr * (th * Q)) with (nu / 3) in * by (rewrite Hnu, Heps; field). lra.
  Qed.
  Lemma num_step X k dl S E' : 0 <= X -> 0 <= k <= nu -> Lr * k <= nu -> lam * X <= 2 * (E + 5 * eps) -> S = m * X + k -> dl <= 5 * eps ->
    E' <= (1 - m) * E + 2 * m * dl + Lr * k + Lr / 2 * (S * S) -> E' <= (1 - m / 2) * E + 13 * nu.
  Proof.
    intros HX Hk HLk Hx ES Hdl HE'. destruct num_basic as (B1 & B2 & B3 & B4 & B5 & B6 & B7 & B8).
    assert (A1 : S * S <= 2 * (m * m * (X * X)) + 2 * (nu * nu)).
    { assert (S * S <= (m * X + nu) * (m * X + nu)).
      { assert (0 <= m * X) by (apply Rmult_le_pos; lra). rewrite ES. apply Rmult_le_compat; lra. }
      pose proof (Rle_0_sqr (m * X - nu)) as Sq. unfold Rsqr in Sq. nra. }
    assert (A2 : lam * lam * (X * X) <= 8 * (E * E) + 200 * (eps * eps)).
    { assert (lam * X * (lam * X) <= 2 * (E + 5 * eps) * (2 * (E + 5 * eps))) by (apply Rmult_le_compat; try lra; apply Rmult_le_pos; lra).
      pose proof (Rle_0_sqr (E - 5 * eps)) as Sq. unfold Rsqr in Sq. nra. }
    assert (LL : 0 < lam * lam) by (apply Rmult_lt_0_compat; lra).
    assert (A3 : Lr * (m * m) * (X * X) <= m / 4 * E + eps).
    { apply Rmult_le_reg_l with (lam * lam); [exact LL|].
      replace (lam * lam * (Lr * (m * m) * (X * X))) with (Lr * (m * m) * (lam * lam * (X * X))) by ring.
      assert (0 <= m * m) by (apply Rmult_le_pos; lra). assert (0 <= Lr * (m * m)) by (apply Rmult_le_pos; lra).
      apply Rle_trans with (Lr * (m * m) * (8 * (E * E) + 200 * (eps * eps))); [apply Rmult_le_compat_l; assumption|].
      replace (Lr * (m * m) * (8 * (E * E) + 200 * (eps * eps))) with (m * m * E / 4 * (32 * Lr * E) + m * m * (200 / 2048 * eps) * (2048 * Lr * eps)) by field.
      assert (M2 : m * m <= m * 1) by (apply Rmult_le_compat_l; lra).
      assert (m * m * E / 4 * (32 * Lr * E) <= m * 1 * E / 4 * (lam * lam)).
      { apply Rmult_le_compat; [| |apply Rmult_le_compat_r; [lra|apply Rmult_le_compat_r; lra]|exact HE].
        - assert (0 <= m * m * E) by (apply Rmult_le_pos; lra). lra.
        - assert (0 <= Lr * E) by (apply Rmult_le_pos; lra). lra. }
      assert (Lr * eps <= Lr * nu) by (apply Rmult_le_compat_l; lra). assert (0 <= Lr * eps) by (apply Rmult_le_pos; lra).
      assert (m * m * (200 / 2048 * eps) * (2048 * Lr * eps) <= 1 * eps * (lam * lam)).
      { apply Rmult_le_compat; [apply Rmult_le_pos; lra|lra| |lra].
        apply Rmult_le_compat; lra. }
      lra. }
    assert (A4 : Lr * (nu * nu) <= nu).
    { replace (Lr * (nu * nu)) with (Lr * nu * nu) by ring. rewrite <- (Rmult_1_l nu) at 3. apply Rmult_le_compat_r; lra. }
    assert (A5 : Lr / 2 * (S * S) <= Lr * (m * m) * (X * X) + Lr * (nu * nu)).
    { apply Rle_trans with (Lr / 2 * (2 * (m * m * (X * X)) + 2 * (nu * nu))); [apply Rmult_le_compat_l; lra|]. right. field. }
    assert (0 <= m * E) by (apply Rmult_le_pos; lra).
    assert (2 * m * dl <= 10 * eps).
    { destruct (Rle_or_lt 0 dl); [|assert (m * dl <= 0); [|lra]]; [assert (m * dl <= 1 * dl) by (apply Rmult_le_compat_r; lra); lra|].
      assert (0 <= m * - dl) by (apply Rmult_le_pos; lra). lra. }
    lra.
  Qed.
End Numbers.
