(** * Derivatives of forward kinematics over the reals *)
From Coq Require Import String Reals Lra Nsatz.
From stdpp Require Import gmap.
From Verif Require Import Scalar ScalarR Geometry Joint Link Prog NodeM ChainM FuncsM RunLemmas
  SpecJoint SpecNode SpecGraph GraphProofs SpecChain ChainProofs SpecFK FKProofs IkProofs JacProofs SpecGeom RGeom GeomProofs.
Local Open Scope R_scope.

Lemma deriv_ext (f g : R -> R) x d d' : (forall u, f u = g u) -> d = d' -> derivable_pt_lim f x d -> derivable_pt_lim g x d'.
Proof.
  intros H <- Hf eps He. destruct (Hf eps He) as [del Hd]. exists del. intros u H1 H2. rewrite <- !H. apply Hd; assumption.
Qed.
Lemma deriv3_ext (f g : R -> vec3 R) x d d' : (forall u, f u = g u) -> d = d' -> deriv3 f x d -> deriv3 g x d'.
Proof.
  intros H <- (H1 & H2 & H3). split; [|split].
  - apply (deriv_ext (fun u => vx (f u)) (fun u => vx (g u)) x (vx d)); [intros u; rewrite H; reflexivity|reflexivity|exact H1].
  - apply (deriv_ext (fun u => vy (f u)) (fun u => vy (g u)) x (vy d)); [intros u; rewrite H; reflexivity|reflexivity|exact H2].
  - apply (deriv_ext (fun u => vz (f u)) (fun u => vz (g u)) x (vz d)); [intros u; rewrite H; reflexivity|reflexivity|exact H3].
Qed.
Lemma deriv_lin3 (a b c k : R) (f g h : R -> R) x df dg dh :
  derivable_pt_lim f x df -> derivable_pt_lim g x dg -> derivable_pt_lim h x dh ->
  derivable_pt_lim (fun u => a * f u + b * g u + c * h u + k) x (a * df + b * dg + c * dh).
Proof.
  intros Hf Hg Hh.
  pose proof (derivable_pt_lim_scal f a x df Hf) as H1. pose proof (derivable_pt_lim_scal g b x dg Hg) as H2.
  pose proof (derivable_pt_lim_scal h c x dh Hh) as H3.
  pose proof (derivable_pt_lim_plus _ _ _ _ _ (derivable_pt_lim_plus _ _ _ _ _ (derivable_pt_lim_plus _ _ _ _ _ H1 H2) H3)
    (derivable_pt_lim_const k x)) as H4.
  eapply deriv_ext; [| |exact H4].
  - intros u. reflexivity.
  - ring.
Qed.
(** moving a curve along *)
Lemma deriv3_move m f x d : deriv3 f x d -> deriv3 (fun u => move m (f u)) x (turn (rt m) d).
Proof.
  intros (H1 & H2 & H3). split; [|split].
  all: eapply deriv_ext; [| |eapply (deriv_lin3 _ _ _ _ _ _ _ x _ _ _ H1 H2 H3)].
  all: [> intros u; reflexivity|reflexivity|intros u; reflexivity|reflexivity|intros u; reflexivity|reflexivity].
Qed.
Lemma deriv3_turn q f x d : deriv3 f x d -> deriv3 (fun u => turn q (f u)) x (turn q d).
Proof.
  intros H. apply (deriv3_ext (fun u => move (Iso (V3 0 0 0) q) (f u)) _ x (turn q d)); [|reflexivity|].
  - intros u. unfold move. cbn [tr rt]. set (y := turn q (f u)). destruct y. gv; ring.
  - exact (deriv3_move (Iso (V3 0 0 0) q) f x d H).
Qed.
Lemma deriv_trig a b k x : derivable_pt_lim (fun u => a * cos u + b * sin u + k) x (a * - sin x + b * cos x).
Proof.
  eapply deriv_ext; [| |eapply (deriv_lin3 a b 0 k cos sin cos x)]; [..|apply derivable_pt_lim_cos|apply derivable_pt_lim_sin|apply derivable_pt_lim_cos].
  - intros u. cbn. ring.
  - ring.
Qed.
Lemma cross_rotate a y x : unit_axis a ->
  cross a (rotate a x y) = plus (times (- sin x) (minus y (times (inner a y) a))) (times (cos x) (cross a y)).
Proof.
  intros Ha. destruct a as [i j k], y as [u v w]. unfold unit_axis in *. cbn in Ha. unfold rotate.
  set (s := sin x). set (co := cos x). clearbody s co. gv; nsatz.
Qed.
Lemma deriv3_rotate a y x : unit_axis a -> deriv3 (fun u => rotate a u y) x (cross a (rotate a x y)).
Proof.
  intros Ha. rewrite cross_rotate by exact Ha.
  set (c := inner a y). unfold rotate. fold c. split; [|split].
  - eapply deriv_ext; [| |exact (deriv_trig (vx (minus y (times c a))) (vx (cross a y)) (c * vx a) x)];
      [intros u; destruct a, y; clearbody c; un; ring|destruct a, y; clearbody c; un; ring].
  - eapply deriv_ext; [| |exact (deriv_trig (vy (minus y (times c a))) (vy (cross a y)) (c * vy a) x)];
      [intros u; destruct a, y; clearbody c; un; ring|destruct a, y; clearbody c; un; ring].
  - eapply deriv_ext; [| |exact (deriv_trig (vz (minus y (times c a))) (vz (cross a y)) (c * vz a) x)];
      [intros u; destruct a, y; clearbody c; un; ring|destruct a, y; clearbody c; un; ring].
Qed.
Lemma deriv_affine y a x : derivable_pt_lim (fun u => y + u * a) x a.
Proof.
  eapply deriv_ext; [| |apply (deriv_lin3 a 0 0 y id id id x 1 1 1); apply derivable_pt_lim_id].
  - intros u. unfold id. ring.
  - ring.
Qed.
Lemma deriv3_slide a y x : deriv3 (fun u => plus y (times u a)) x a.
Proof. split; [|split]; apply deriv_affine. Qed.
Lemma deriv3_const y x : deriv3 (fun _ => y) x (V3 0 0 0).
Proof. split; [|split]; apply derivable_pt_lim_const. Qed.

Lemma cross_zero y : cross (V3 0 0 0) y = V3 0 0 0.
Proof. destruct y; gv; ring. Qed.
Lemma turn_zero q : turn q (V3 0 0 0) = V3 0 0 0.
Proof. destruct q; gv; ring. Qed.
Lemma plus_zero_l y : plus (V3 0 0 0) y = y.
Proof. destruct y; gv; ring. Qed.
Lemma plus_zero_r y : plus y (V3 0 0 0) = y.
Proof. destruct y; gv; ring. Qed.
Lemma minus_plus_r y z : minus (plus y z) z = y.
Proof. destruct y, z; gv; ring. Qed.
Lemma rotate_zero a p : rotate a p (V3 0 0 0) = V3 0 0 0.
Proof. unfold rotate. destruct a; gv; ring. Qed.
Lemma move_zero m : move m (V3 0 0 0) = tr m.
Proof. unfold move. rewrite turn_zero, plus_zero_l. reflexivity. Qed.

(** the joint moved to [u] *)
Definition jat (j : joint R) (u : R) : joint R := joint_set_unchecked j u.
Lemma unit_jat j u : unit_joint j -> unit_joint (jat j u).
Proof. intros H. exact H. Qed.

(** derivative of [P * L(u) * S] in its two parts, and the code's column *)
Lemma column_derivative (P S : iso R) (j : joint R) (col : list R) :
  proper P -> proper S -> unit_joint j ->
  let fk := fun u => iso_mul (iso_mul P (local_transform (jat j u))) S in
  jcol (tr (fk (j_position j))) (iso_mul P (local_transform (jat j (j_position j)))) (j_type j) = Some col ->
  exists d1 d2 d3 o1 o2 o3, col = [d1; d2; d3; o1; o2; o3] /\
    deriv3 (fun u => tr (fk u)) (j_position j) (V3 d1 d2 d3) /\
    forall v, deriv3 (fun u => turn (rt (fk u)) v) (j_position j) (cross (V3 o1 o2 o3) (turn (rt (fk (j_position j))) v)).
Proof.
  intros HP HS Hj fk Hcol. set (p := j_position j) in *.
  assert (Hfk : forall u x, move (fk u) x = move P (move (local_transform (jat j u)) (move S x))).
  { intros u x. assert (Hl : proper (local_transform (jat j u))) by (apply proper_local; exact Hj).
    unfold fk. rewrite (iso_mul_move _ S) by (exact HS || exact (proper_mul _ _ HP Hl)).
    rewrite (iso_mul_move P _) by (exact HP || exact Hl). reflexivity. }
  assert (Hpf : forall u, proper (fk u)).
  { intros u. unfold fk. apply (proper_mul (iso_mul P _) S); [apply (proper_mul P); [exact HP|apply proper_local; exact Hj]|exact HS]. }
  destruct (j_type j) as [|a|a] eqn:Ety; [discriminate| |].
  - (* rotational *)
    assert (Ha : unit_axis a) by (destruct Hj as [Ht _]; rewrite Ety in Ht; exact Ht).
    set (A := iso_mul P (j_origin j)).
    assert (HA : proper A) by (apply proper_mul; [assumption|apply Hj]).
    assert (Hm : forall u x, move (fk u) x = move A (rotate a u (move S x))).
    { intros u x. rewrite Hfk, (local_rotational (jat j u) a) by (exact Hj || exact Ety).
      unfold A. rewrite iso_mul_move by (exact HP || apply Hj). reflexivity. }
    set (W := iso_mul P (local_transform (jat j p))) in *.
    assert (HW : forall x, move W x = move A (rotate a p x)).
    { intros x. unfold W. rewrite iso_mul_move by (exact HP || apply proper_local, Hj).
      rewrite (local_rotational (jat j p) a) by (exact Hj || exact Ety). unfold A. rewrite iso_mul_move by (exact HP || apply Hj). reflexivity. }
    assert (Hax : turn (rt W) a = turn (rt A) a).
    { pose proof (HW a) as E1. pose proof (HW (V3 0 0 0)) as E0. rewrite rotate_axis in E1 by exact Ha.
      rewrite rotate_zero, !move_zero in E0. unfold move in E1. rewrite E0 in E1.
      apply (f_equal (fun y => minus y (tr A))) in E1. rewrite !minus_plus_r in E1. exact E1. }
    assert (HtW : tr W = tr A) by (pose proof (HW (V3 0 0 0)) as E0; rewrite rotate_zero, !move_zero in E0; exact E0).
    cbv beta iota zeta delta [jcol] in Hcol. rewrite !qrot_turn, Hax in Hcol. apply Some_inj in Hcol. subst col.
    do 6 eexists. split; [reflexivity|]. split.
    + apply (deriv3_ext (fun u => move A (rotate a u (tr S))) _ p (turn (rt A) (cross a (rotate a p (tr S))))).
      * intros u. rewrite <- (move_zero S), <- Hm. apply move_zero.
      * rewrite <- cross_turn by exact HA. rewrite HtW.
        assert (tr (fk p) = plus (turn (rt A) (rotate a p (tr S))) (tr A)) as ->.
        { rewrite <- (move_zero (fk p)), Hm, move_zero. reflexivity. }
        set (y := turn (rt A) (rotate a p (tr S))). set (z := turn (rt A) a). destruct y, z, (tr A). gv; ring.
      * apply deriv3_move, deriv3_rotate, Ha.
    + intros v.
      assert (Hv : forall u, turn (rt (fk u)) v = turn (rt A) (rotate a u (turn (rt S) v))).
      { intros u. pose proof (Hm u v) as E1. pose proof (Hm u (V3 0 0 0)) as E0. rewrite !move_zero in E0.
        unfold move at 1 in E1. rewrite E0 in E1.
        apply (f_equal (fun y => minus y (move A (rotate a u (tr S))))) in E1. rewrite minus_plus_r, move_minus in E1.
        rewrite E1. f_equal. rewrite <- !turn_axis_angle by exact Ha. rewrite <- turn_minus. f_equal.
        unfold move. apply minus_plus_r. }
      apply (deriv3_ext (fun u => turn (rt A) (rotate a u (turn (rt S) v))) _ p (turn (rt A) (cross a (rotate a p (turn (rt S) v))))).
      * intros u. symmetry. apply Hv.
      * rewrite <- cross_turn by exact HA. rewrite Hv. destruct (turn (rt A) a). reflexivity.
      * apply deriv3_turn, deriv3_rotate, Ha.
  - (* linear *)
    set (A := iso_mul P (j_origin j)).
    assert (HA : proper A) by (apply proper_mul; [assumption|apply Hj]).
    assert (Hrt : forall u, rt (local_transform (jat j u)) = rt (j_origin j)) by (intros u; apply (local_linear (jat j u) a Ety)).
    assert (Hm : forall u x, move (fk u) x = move A (plus (move S x) (times u a))).
    { intros u x. rewrite Hfk. rewrite (proj2 (local_linear (jat j u) a Ety)).
      unfold A. rewrite iso_mul_move by (exact HP || apply Hj). reflexivity. }
    assert (HW : rt (iso_mul P (local_transform (jat j p))) = rt A) by (cbn [iso_mul rt]; rewrite Hrt; reflexivity).
    cbv beta iota zeta delta [jcol] in Hcol. rewrite HW, !qrot_turn in Hcol. apply Some_inj in Hcol. subst col.
    do 6 eexists. split; [reflexivity|]. split.
    + apply (deriv3_ext (fun u => move A (plus (tr S) (times u a))) _ p (turn (rt A) a)).
      * intros u. rewrite <- (move_zero (fk u)), Hm, move_zero. reflexivity.
      * destruct (turn (rt A) a). reflexivity.
      * apply deriv3_move, deriv3_slide.
    + intros v. change (cross _ _) with (cross (V3 0 0 0) (turn (rt (fk p)) v)). rewrite cross_zero.
      apply (deriv3_ext (fun _ => turn (rt (iso_mul A S)) v) _ p (V3 0 0 0)); [|reflexivity|apply deriv3_const].
      intros u. unfold fk. cbn [iso_mul rt A]. rewrite Hrt. reflexivity.
Qed.

(** ** The theorem about the programs *)
Lemma product_iso1 base ts : proper base -> Forall proper ts -> product base ts = iso_mul base (product iso1 ts).
Proof.
  intros Hb Hts. revert base Hb. induction Hts as [|t ts Ht Hts IH]; intros base Hb.
  - symmetry. apply iso_mul_1_r.
  - change (product (iso_mul base t) ts = iso_mul base (product (iso_mul iso1 t) ts)).
    rewrite IH by (apply proper_mul; auto). rewrite (IH (iso_mul iso1 t)) by (apply proper_mul; [apply proper_1|auto]).
    rewrite iso_mul_1_l, iso_mul_assoc by auto. reflexivity.
Qed.
Lemma local_at_insert h a n n' l ts : a ∉ l -> h !! a = Some n -> Forall2 (local_at h) l ts -> Forall2 (local_at (<[a := n']> h)) l ts.
Proof.
  intros Ha Hn H. induction H as [|b t l ts (m & Hm & ->) H IH]; [constructor|]. constructor; [|apply IH; set_solver].
  exists m. split; [|reflexivity]. rewrite lookup_insert_ne by set_solver. exact Hm.
Qed.
Lemma Forall_local_proper h l ts : Forall2 (local_at h) l ts ->
  (forall a n, a ∈ l -> h !! a = Some n -> unit_joint (n_joint n)) -> Forall proper ts.
Proof.
  induction 1 as [|b t l ts (m & Hm & ->) H IH]; intros Hu; [constructor|]. constructor.
  - apply proper_local. eapply Hu; [|exact Hm]. set_solver.
  - apply IH. intros a n Ha. apply Hu. set_solver.
Qed.
Lemma set_unchecked_run t (h : gmap nat (node R)) nx a n u : h !! a = Some n ->
  run t (node_set_joint_position_unchecked a u) (quiet h nx) =
  Done tt (quiet (<[a := set_n_joint n (jat (n_joint n) u)]> h) nx).
Proof.
  intros Hn. unfold node_set_joint_position_unchecked, quiet.
  rewrite (run_modify t a _ h nx ∅ n) by (auto using lookup_empty). reflexivity.
Qed.
Lemma jacobian_derivative_lemma t (h : gmap nat (node R)) nx arm e l :
  path_up h e l -> c_nodes arm = rev l -> chain_of h (rev l) arm ->
  (forall a n, a ∈ l -> h !! a = Some n -> unit_joint (n_joint n)) ->
  exists cols h', run t (jacobian arm) (quiet h nx) = Done (Mat 6 cols) (quiet h' nx) /\
    length cols = c_dof arm /\
    forall i a n, c_movable arm !! i = Some a -> h !! a = Some n ->
    exists fk d1 d2 d3 o1 o2 o3,
      (forall u, exists s, run t (node_set_joint_position_unchecked a u ;;; end_transform arm) (quiet h nx) = Done (fk u) s) /\
      run t (end_transform arm) (quiet h nx) = Done (fk (j_position (n_joint n))) (quiet h nx) /\
      cols !! i = Some [d1; d2; d3; o1; o2; o3] /\
      deriv3 (fun u => tr (fk u)) (j_position (n_joint n)) (V3 d1 d2 d3) /\
      forall v, deriv3 (fun u => turn (rt (fk u)) v) (j_position (n_joint n))
                  (cross (V3 o1 o2 o3) (turn (rt (fk (j_position (n_joint n)))) v)).
Proof.
  intros Hp Hc Hch Hu.
  assert (Hlive : all_live h (c_nodes arm)) by (rewrite Hc; apply all_live_rev; eapply path_all_live; eauto).
  assert (Hpf : parents_first h (c_nodes arm)) by (rewrite Hc; eapply from_end_parents_first; eauto).
  destruct (locals_exist h _ Hlive) as [ts Hts].
  destruct (run_jacobian t h nx arm ts) as (cols & h' & Hr & Hlen & Hcols).
  { apply parents_first_order; assumption. } { rewrite Hc. exact Hch. } { exact Hts. }
  exists cols, h'. split; [exact Hr|]. split; [exact Hlen|]. intros i a n Hi Hn.
  apply Forall2_same_length_lookup in Hcols as [Hlm Hcols].
  destruct (lookup_lt_is_Some_2 cols i) as [col Hcol]; [rewrite <- Hlm; eapply lookup_lt_Some; eauto|].
  destruct (Hcols _ _ _ Hi Hcol) as (n' & w & Hn' & Hb & Hj). assert (n' = n) as -> by congruence.
  assert (Ha : a ∈ c_nodes arm).
  { destruct Hch as (_ & Hm & _). rewrite Hm in Hi. apply elem_of_list_lookup_2, elem_of_list_In, filter_In in Hi as [Hi _].
    rewrite Hc. apply elem_of_list_In, Hi. }
  pose proof (based_world h _ a w Hpf Ha Hb) as Hw.
  assert (Hnd : NoDup (c_nodes arm)).
  { rewrite Hc. apply NoDup_ListNoDup, NoDup_rev, NoDup_ListNoDup. eapply path_up_nodup; eauto. }
  assert (Hu' : forall b m, b ∈ c_nodes arm -> h !! b = Some m -> unit_joint (n_joint m)).
  { intros b m Hb'. apply Hu. rewrite Hc in Hb'. apply elem_of_list_In, in_rev in Hb'. apply elem_of_list_In, Hb'. }
  pose proof (Forall_local_proper _ _ _ Hts Hu') as Hpr.
  apply elem_of_list_split in Ha as (l1 & l2 & El).
  rewrite El in Hts, Hnd. apply Forall2_app_inv_l in Hts as (ts1 & ts2' & H1 & H2 & ->).
  inversion H2 as [|? ta ? ts2 Hta H3 E1 E2]; subst. clear H2.
  apply Forall_app in Hpr as [Hpr1 Hpr2]. apply Forall_cons in Hpr2 as [_ Hpr2].
  set (P := product iso1 ts1) in *. set (S := product iso1 ts2).
  assert (HP : proper P) by (apply proper_product; [apply proper_1|exact Hpr1]).
  assert (HS : proper S) by (apply proper_product; [apply proper_1|exact Hpr2]).
  assert (Hju : unit_joint (n_joint n)) by (apply (Hu' a n); [rewrite El; set_solver|exact Hn]).
  set (fk := fun u => iso_mul (iso_mul P (local_transform (jat (n_joint n) u))) S).
  assert (Hsplit : forall tt0, proper tt0 -> product iso1 (ts1 ++ tt0 :: ts2) = iso_mul (iso_mul P tt0) S).
  { intros t0 Ht0. rewrite product_app. apply (product_iso1 (iso_mul P t0)); [apply proper_mul; assumption|exact Hpr2]. }
  assert (Hnil : a ∉ l1 /\ a ∉ l2).
  { apply NoDup_app in Hnd as (_ & Hd & Hnd2). apply NoDup_cons in Hnd2 as [Hn2 _]. split; [|exact Hn2].
    intros Hin. apply (Hd a Hin). set_solver. }
  destruct Hta as (na & Hna & ->). assert (na = n) as -> by congruence.
  assert (Hsame : local_transform (jat (n_joint n) (j_position (n_joint n))) = local_transform (n_joint n)) by reflexivity.
  assert (Hend : run t (end_transform arm) (quiet h nx) = Done (fk (j_position (n_joint n))) (quiet h nx)).
  { unfold end_transform. rewrite El. rewrite (run_end_fold t h nx _ (ts1 ++ local_transform (n_joint n) :: ts2)).
    - rewrite Hsplit by (apply proper_local, Hju). unfold fk. rewrite Hsame. reflexivity.
    - apply Forall2_app; [exact H1|]. constructor; [exists n; auto|exact H3]. }
  assert (Hwe : w = iso_mul P (local_transform (n_joint n))).
  { eapply (partial_product h e l ts1 _ ts2 l1 a l2); eauto; [congruence|exists n; auto]. }
  destruct (column_derivative P S (n_joint n) col HP HS Hju) as (d1 & d2 & d3 & o1 & o2 & o3 & -> & Hd & Ho).
  { rewrite Hsame. rewrite <- Hwe, <- Hj. f_equal. rewrite Hsplit by (apply proper_local, Hju). rewrite Hwe. reflexivity. }
  exists fk, d1, d2, d3, o1, o2, o3. split; [|split; [exact Hend|split; [exact Hcol|split; [exact Hd|exact Ho]]]].
  intros u. eexists. rewrite run_bind, (set_unchecked_run t h nx a n u Hn). cbn [obind].
  unfold end_transform. rewrite El. rewrite (run_end_fold t _ nx _ (ts1 ++ local_transform (jat (n_joint n) u) :: ts2)).
  - rewrite Hsplit by (apply proper_local, Hju). reflexivity.
  - apply Forall2_app; [eapply local_at_insert; [apply Hnil|exact Hn|exact H1]|]. constructor.
    + eexists. rewrite lookup_insert. split; reflexivity.
    + eapply local_at_insert; [apply Hnil|exact Hn|exact H3].
Qed.
