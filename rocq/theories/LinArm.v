(** * Arms of linear joints, and the null space motion, over the reals *)
From Coq Require Import String NArith Reals Lra Sorting.Sorted.
From stdpp Require Import gmap.
From Verif Require Import Scalar ScalarR Geometry Joint Link Prog NodeM ChainM FuncsM IkM RunLemmas
  SpecJoint SpecNode RangeProofs JointProofs NodeProofs SpecGraph GraphProofs SpecChain ChainProofs
  SpecFK FKProofs VelocityProofs IkLookup SpecIk IkProofs IkProofs2 JacProofs SpecGeom RGeom GeomProofs SpecStep StepProofs LinAlgR.
Local Open Scope R_scope.

(** ** the null space motion *)
Lemma act_length m r c x : shaped m r c -> length (act m x) = r.
Proof. intros (E & _ & H). unfold act. rewrite E. apply combine_length. exact H. Qed.
Lemma null_vec J P r n e s : shaped J r n -> shaped P n r -> length e = r -> length s = n ->
  vec_add (mat_vec P e) (mat_vec (mat_sub (ident (m_rows P)) (mat_mul P J)) s) = ladd (act P e) (lsub s (act P (act J s))).
Proof.
  intros HJ HP He Hs. pose proof HJ as (Jr & Jc & Jl). pose proof HP as (Pr & Pc & Pl).
  assert (H1 : mat_vec P e = act P e) by (apply mat_vec_combine; rewrite Pr; exact Pl).
  assert (Hmul : Forall (fun c => length c = n) (m_cols (mat_mul P J))).
  { cbn. apply Forall_map, Forall_true. intros c. unfold mat_vec. rewrite map_length, seq_length. exact Pr. }
  assert (H2 : mat_vec (mat_sub (ident (m_rows P)) (mat_mul P J)) s = lsub s (act P (act J s))).
  { rewrite Pr. rewrite mat_vec_combine.
    - cbn [mat_sub m_rows m_cols]. change (m_rows (ident n)) with n. rewrite mat_sub_combine.
      + rewrite ident_combine by exact Hs. f_equal. cbn [mat_mul m_cols]. rewrite <- Pr.
        rewrite mat_mul_combine; [reflexivity|rewrite Pr; exact Pl|rewrite Jr; exact Jl|congruence|congruence].
      + apply ident_cols.
      + exact Hmul.
      + cbn. rewrite !map_length, seq_length. congruence.
    - cbn [mat_sub m_rows m_cols]. change (m_rows (ident n)) with n.
      assert (Hi := ident_cols n). revert Hmul. generalize (m_cols (mat_mul P J)).
      induction Hi as [|a A Ha HA IH]; intros [|b B] HB; cbn [zip_with]; constructor.
      + apply Forall_cons in HB as [Hb _]. rewrite zip_with_length. lia.
      + apply IH. apply Forall_cons in HB as [_ HB]. exact HB. }
  rewrite H1, H2. reflexivity.
Qed.
Lemma null_motion J P r n e s : shaped J r n -> shaped P n r -> length e = r -> length s = n ->
  (forall x, length x = n -> act J (act P (act J x)) = act J x) ->
  act J (vec_add (mat_vec P e) (mat_vec (mat_sub (ident (m_rows P)) (mat_mul P J)) s)) = act J (act P e).
Proof.
  intros HJ HP He Hs Hpen. pose proof HJ as (Jr & Jc & Jl). rewrite (null_vec J P r n e s HJ HP He Hs).
  assert (Lp : length (act P e) = n) by (eapply act_length; eauto).
  assert (Lj : length (act P (act J s)) = n) by (eapply act_length; eauto).
  assert (Ls : length (lsub s (act P (act J s))) = n) by (unfold lsub; rewrite zip_with_length; lia).
  unfold act at 1. rewrite combine_add by (rewrite ?Jr; congruence || exact Jl).
  rewrite combine_sub by (rewrite ?Jr; congruence || exact Jl).
  fold (act J (act P e)) (act J s) (act J (act P (act J s))). rewrite (Hpen s Hs).
  assert (La : length (act J (act P e)) = r) by (eapply act_length; eauto).
  assert (Lb : length (act J s) = r) by (eapply act_length; eauto).
  revert La Lb. generalize (act J (act P e)), (act J s). clear.
  intros a. revert r. induction a as [|x a IH]; intros r [|y b] H1 H2; cbn; try reflexivity; [cbn in *; lia|].
  unfold ladd, lsub in *. destruct r; [discriminate|]. rewrite (IH r) by (cbn in *; lia). f_equal. ring.
Qed.

(** ** products of linear joints *)
Definition same_frame (j j' : joint R) : Prop := j_type j' = j_type j /\ j_origin j' = j_origin j.
Fixpoint dirs (base : iso R) (js : list (joint R)) : list (vec3 R) :=
  match js with
  | [] => []
  | j :: js =>
      let b := iso_mul base (local_transform j) in
      match j_type j with Linear a => qrot (rt b) a :: dirs b js | _ => dirs b js end
  end.
Fixpoint steps (js js' : list (joint R)) : list R :=
  match js, js' with
  | j :: js, j' :: js' =>
      match j_type j with Linear _ => (j_position j' - j_position j) :: steps js js' | _ => steps js js' end
  | _, _ => []
  end.
Definition vsum (ds : list (vec3 R)) (ys : list R) : vec3 R :=
  foldr plus (V3 0 0 0) (zip_with (fun d y => times y d) ds ys).
Lemma rt_local j j' : straight j -> same_frame j j' -> rt (local_transform j') = rt (local_transform j).
Proof.
  intros [_ Hs] [Et Eo]. unfold local_transform. rewrite Et, Eo. destruct (j_type j); [reflexivity|destruct Hs|reflexivity].
Qed.
Lemma proper_local_straight j : straight j -> proper (local_transform j).
Proof.
  intros [Hp Hs]. unfold proper, local_transform in *. destruct (j_type j); [|destruct Hs|].
  all: cbn; destruct (j_origin j) as [? [i q k w]]; unfold unit_quat in *; cbn in *; nra.
Qed.
Lemma tr_local j j' : straight j -> same_frame j j' -> match j_type j with
  | Linear a => tr (local_transform j') = plus (tr (local_transform j)) (times (j_position j' - j_position j) (turn (rt (local_transform j)) a))
  | _ => tr (local_transform j') = tr (local_transform j) end.
Proof.
  intros [Hp Hs] [Et Eo]. unfold local_transform. rewrite Et, Eo. destruct (j_type j) as [| |a]; [reflexivity|destruct Hs|].
  cbn [iso_mul joint_transform tr rt]. rewrite !qrot_turn.
  destruct (j_origin j) as [[ox oy oz] [i q k w]]. destruct a. cbn [tr rt]. gv; ring.
Qed.
Lemma straight_shift js js' : Forall straight js -> Forall2 same_frame js js' ->
  forall base base' s, proper base -> rt base' = rt base -> tr base' = plus (tr base) s ->
  rt (product base' (map local_transform js')) = rt (product base (map local_transform js)) /\
  tr (product base' (map local_transform js')) = plus (plus (tr (product base (map local_transform js))) s) (vsum (dirs base js) (steps js js')) /\
  dirs base' js' = dirs base js.
Proof.
  intros Hst Hsf. induction Hsf as [|j j' js js' Hj Hsf IH]; intros base base' s Hb Er Et.
  - cbn. split; [exact Er|]. split; [|reflexivity]. rewrite Et. unfold vsum. cbn. destruct (tr base), s. gv; ring.
  - apply Forall_cons in Hst as [Hs Hst]. cbn [map].
    set (b := iso_mul base (local_transform j)). set (b' := iso_mul base' (local_transform j')).
    change (product base' (local_transform j' :: map local_transform js')) with (product b' (map local_transform js')).
    change (product base (local_transform j :: map local_transform js)) with (product b (map local_transform js)).
    assert (Hpb : proper b) by (apply (proper_mul base (local_transform j)); [exact Hb|apply proper_local_straight; exact Hs]).
    assert (Erb : rt b' = rt b) by (unfold b, b'; cbn [iso_mul rt]; rewrite Er, (rt_local j j' Hs Hj); reflexivity).
    set (d := match j_type j with Linear a => times (j_position j' - j_position j) (qrot (rt b) a) | _ => V3 0 0 0 end).
    assert (Etb : tr b' = plus (tr b) (plus s d)).
    { unfold d, b, b'. cbn [iso_mul tr rt]. rewrite Er, Et. rewrite !qrot_turn.
      pose proof (tr_local j j' Hs Hj) as Hl.
      destruct (j_type j) as [| |a] eqn:Ej; [|destruct Hs as [_ Hs]; rewrite Ej in Hs; destruct Hs|]; rewrite Hl.
      - destruct (tr base), s. set (y := turn _ _). destruct y. gv; ring.
      - rewrite qrot_turn, turn_mul by (exact Hb || apply proper_local_straight; exact Hs).
        set (y := turn (rt (local_transform j)) a). set (x := tr (local_transform j)). destruct x, y, (tr base), s, (rt base). gv; ring. }
    destruct (IH Hst b b' (plus s d) Hpb Erb Etb) as (H1 & H2 & H3).
    split; [exact H1|]. split.
    + rewrite H2. cbn [dirs steps]. fold b. unfold d. destruct (j_type j) as [| |a]; cbn [vsum zip_with foldr];
        set (x := tr (product b (map local_transform js))).
      * fold (vsum (dirs b js) (steps js js')). set (v := vsum _ _). destruct x, v, s. gv; ring.
      * set (v := vsum (dirs b js) (steps js js')). destruct x, v, s. gv; ring.
      * change (foldr plus (V3 0 0 0) (zip_with (fun d y => times y d) (dirs b js) (steps js js'))) with (vsum (dirs b js) (steps js js')).
        set (v := vsum _ _). set (q := qrot _ _). destruct x, v, s, q. gv; ring.
    + destruct Hj as [Ety Eo]. cbn [dirs]. fold b b'. rewrite Ety. destruct (j_type j); rewrite ?Erb; rewrite H3; reflexivity.
Qed.
(** the columns of the Jacobian *)
Definition col_of (d : vec3 R) : list R := [vx d; vy d; vz d; 0; 0; 0].
Lemma combine_cols ds ys : combine 6 (map col_of ds) ys = [vx (vsum ds ys); vy (vsum ds ys); vz (vsum ds ys); 0; 0; 0].
Proof.
  revert ys. induction ds as [|d ds IH]; intros [|y ys]; cbn [map combine]; try reflexivity.
  rewrite IH. unfold col_of. cbn [zip_with].
  change (vsum (d :: ds) (y :: ys)) with (plus (times y d) (vsum ds ys)). set (v := vsum ds ys). destruct v as [v1 v2 v3], d as [d1 d2 d3].
  cbn [vx vy vz plus times]. repeat (apply (f_equal2 (@cons R)); [ring|]). reflexivity.
Qed.

(** ** on the heap *)
Definition joints_at (h : gmap nat (node R)) (L : list nat) (js : list (joint R)) : Prop :=
  Forall2 (fun a j => exists n, h !! a = Some n /\ j = n_joint n) L js.
Lemma joints_exist h L : all_live h L -> exists js, joints_at h L js.
Proof.
  intros H. induction L as [|a L IH]; [exists []; constructor|]. destruct (H a ltac:(set_solver)) as [n Hn].
  destruct IH as [js Hjs]; [intros b Hb; apply H; set_solver|]. exists (n_joint n :: js). constructor; eauto.
Qed.
Lemma joints_locals h L js : joints_at h L js -> Forall2 (local_at h) L (map local_transform js).
Proof. induction 1 as [|a j L js (n & Hn & ->) H IH]; constructor; [exists n; auto|exact IH]. Qed.
Lemma frozen_parents h h' : frozen h h' -> same_parents (T := R) h h'.
Proof.
  intros Hf a. specialize (Hf a). destruct (h !! a) as [n|], (h' !! a) as [n'|]; cbn in *; try discriminate; [|reflexivity].
  apply Some_inj, bare_eq in Hf as (_ & _ & _ & _ & _ & Hp & _). congruence.
Qed.

Section Arm.
  Variables (arm : chain) (e : nat) (l : list nat).
  Definition arm_ok (h : gmap nat (node R)) : Prop :=
    path_up h e l /\ chain_of h (rev l) arm /\
    (forall a n, a ∈ l -> h !! a = Some n -> straight (n_joint n) /\ j_limits (n_joint n) = None).
  Lemma arm_frozen h h' : arm_ok h -> frozen h h' -> arm_ok h'.
  Proof.
    intros (Hp & Hc & Hs) Hf. split; [eapply same_parents_path; [apply frozen_parents; exact Hf|exact Hp]|].
    split; [eapply frozen_chain; eauto|]. intros a n' Ha Hn'.
    destruct (frozen_at h' h a n' (frozen_sym _ _ Hf) Hn') as (n & Hn & E). apply bare_eq in E as (_ & Et & _ & El & Eo & _).
    destruct (Hs a n Ha Hn) as [[S1 S2] S3]. unfold straight. rewrite <- Et, <- Eo, <- El. auto.
  Qed.
  Lemma arm_live h : arm_ok h -> all_live h (c_nodes arm).
  Proof. intros (Hp & (Hc & _) & _). rewrite Hc. apply all_live_rev. eapply path_all_live; eauto. Qed.
  Lemma arm_nodup h : arm_ok h -> NoDup (c_movable arm).
  Proof.
    intros (Hp & (_ & Hm & _) & _). rewrite Hm. apply NoDup_ListNoDup, List.NoDup_filter, NoDup_rev, NoDup_ListNoDup. eapply path_up_nodup; eauto.
  Qed.
  Lemma arm_chain h : arm_ok h -> chain_of h (c_nodes arm) arm.
  Proof. intros (_ & Hc & _). pose proof Hc as (E & _). rewrite E. exact Hc. Qed.
  Lemma arm_dof h : arm_ok h -> c_dof arm = length (c_movable arm).
  Proof. intros (_ & (_ & Hm & Hd) & _). rewrite Hm, Hd. reflexivity. Qed.

  Lemma arm_columns h js p : arm_ok h -> joints_at h (rev l) js ->
    forall l2 js2 l1 js1, rev l = l1 ++ l2 -> js = js1 ++ js2 -> joints_at h l1 js1 -> joints_at h l2 js2 ->
    forall cols, Forall2 (col_at h (rev l) p) (List.filter (node_movable h) l2) cols ->
    cols = map col_of (dirs (product iso1 (map local_transform js1)) js2).
  Proof.
    intros (Hp & Hc & Hs) Hjs l2. induction l2 as [|a l2 IH]; intros js2 l1 js1 El Ejs H1 H2 cols Hcols.
    - inversion H2; subst. inversion Hcols. reflexivity.
    - inversion H2 as [|? j ? js2' (n & Hn & ->) H2' E1 E2]; subst js2. clear H2.
      assert (Ha : a ∈ rev l) by (rewrite El; set_solver).
      assert (Hal : a ∈ l) by (apply elem_of_list_In, in_rev, elem_of_list_In; exact Ha).
      assert (Hn1 : joints_at h (l1 ++ [a]) (js1 ++ [n_joint n])) by (apply Forall2_app; [exact H1|repeat constructor; eauto]).
      assert (Hprod : product iso1 (map local_transform (js1 ++ [n_joint n])) = iso_mul (product iso1 (map local_transform js1)) (local_transform (n_joint n))).
      { rewrite map_app. cbn [map]. rewrite product_app. reflexivity. }
      cbn [List.filter] in Hcols. unfold node_movable in Hcols at 1. rewrite Hn in Hcols.
      specialize (IH js2' (l1 ++ [a]) (js1 ++ [n_joint n])).
      rewrite <- !app_assoc in IH. specialize (IH El Ejs Hn1 H2'). rewrite Hprod in IH.
      cbn [dirs]. destruct (Hs a n Hal Hn) as [[_ Hstr] _].
      destruct (j_type (n_joint n)) as [| |ax] eqn:Ety; [apply IH; exact Hcols|destruct Hstr|].
      cbn in Hcols. inversion Hcols as [|? col ? cols' (n' & w & Hn' & Hb & Hj) Hcols' E3 E4]; subst cols. clear Hcols.
      assert (n' = n) as -> by congruence. rewrite Ety in Hj. cbn [jcol] in Hj. apply Some_inj in Hj as <-.
      cbn [map]. f_equal; [|apply IH; exact Hcols'].
      assert (Hw : world h a w) by (eapply based_world; [eapply from_end_parents_first; eauto|exact Ha|exact Hb]).
      assert (w = iso_mul (product iso1 (map local_transform js1)) (local_transform (n_joint n))) as ->.
      { apply (partial_product h e l (map local_transform js1) (local_transform (n_joint n)) (map local_transform js2') l1 a l2 w Hp El);
          [apply joints_locals; exact H1|exists n; auto|apply joints_locals; exact H2'|exact Hw]. }
      reflexivity.
  Qed.
  Lemma arm_jacobian t h nx js : arm_ok h -> joints_at h (rev l) js ->
    run t (end_transform arm) (quiet h nx) = Done (product iso1 (map local_transform js)) (quiet h nx) /\
    exists h1, run t (jacobian arm) (quiet h nx) = Done (Mat 6 (map col_of (dirs iso1 js))) (quiet h1 nx).
  Proof.
    intros Hok Hjs. pose proof Hok as (Hp & Hc & Hs). pose proof Hc as (En & Hm & Hd).
    assert (Hts : Forall2 (local_at h) (c_nodes arm) (map local_transform js)) by (rewrite En; apply joints_locals; exact Hjs).
    split; [unfold end_transform; apply run_end_fold; exact Hts|].
    destruct (run_jacobian t h nx arm (map local_transform js)) as (cols & h1 & Hr & _ & Hcols); [|rewrite En; exact Hc|exact Hts|].
    { apply parents_first_order; [eapply arm_live; eauto|]. rewrite En. eapply from_end_parents_first; eauto. }
    exists h1. rewrite Hr. do 2 f_equal. rewrite En, Hm in Hcols.
    apply (arm_columns h js _ Hok Hjs (rev l) js [] [] eq_refl eq_refl) in Hcols; [exact Hcols|constructor|exact Hjs].
  Qed.

  Lemma steps_of h h' : forall L js js', joints_at h L js -> joints_at h' L js' ->
    (forall a n, a ∈ L -> h !! a = Some n -> straight (n_joint n)) ->
    forall ys, length ys = length (List.filter (node_movable h) L) ->
    (forall i a n y, List.filter (node_movable h) L !! i = Some a -> h !! a = Some n -> ys !! i = Some y ->
      position_at h' a = Some (j_position (n_joint n) + y)) ->
    steps js js' = ys.
  Proof.
    intros L js js' Hj. revert js'. induction Hj as [|a j L js (n & Hn & ->) Hj IH]; intros js' Hj' Hs ys Hlen Hpos.
    - inversion Hj'; subst. destruct ys; [reflexivity|discriminate].
    - inversion Hj' as [|? j' ? js'' (n' & Hn' & ->) Hj'' E1 E2]; subst js'. clear Hj'.
      cbn [List.filter] in *. unfold node_movable in Hlen at 1. unfold node_movable in Hpos at 1. rewrite Hn in *.
      destruct (Hs a n ltac:(set_solver) Hn) as [_ Hstr]. cbn [steps].
      assert (Hs' : forall b m, b ∈ L -> h !! b = Some m -> straight (n_joint m)) by (intros b m Hb; apply Hs; set_solver).
      destruct (j_type (n_joint n)) as [| |ax] eqn:Ety; [|destruct Hstr|].
      + apply IH; [exact Hj''|exact Hs'|exact Hlen|exact Hpos].
      + cbn [length] in Hlen. destruct ys as [|y ys]; [discriminate|]. injection Hlen as Hlen.
        f_equal; [|apply IH; [exact Hj''|exact Hs'|exact Hlen|intros i; apply (Hpos (S i))]].
        specialize (Hpos 0%nat a n y eq_refl Hn eq_refl). unfold position_at in Hpos. rewrite Hn' in Hpos. cbn in Hpos.
        apply Some_inj in Hpos. lra.
  Qed.

  (** moving the joints by [m * full] changes the pose difference linearly *)
  Lemma arm_moved h h' js js' target m full : arm_ok h -> frozen h h' -> joints_at h (rev l) js -> joints_at h' (rev l) js' ->
    length full = c_dof arm ->
    (forall j a n, c_movable arm !! j = Some a -> h !! a = Some n ->
        position_at h' a = Some (match full !! j with
          | Some y => limited (j_limits (n_joint n)) (sadd (j_position (n_joint n)) (smul m y))
          | None => j_position (n_joint n) end)) ->
    dirs iso1 js' = dirs iso1 js /\
    calc_pose_diff target (product iso1 (map local_transform js')) =
      lsub (calc_pose_diff target (product iso1 (map local_transform js))) (lscale m (combine 6 (map col_of (dirs iso1 js)) full)).
  Proof.
    intros Hok Hf Hj Hj' Hlen Hpos. pose proof Hok as (Hp & (En & Hm & Hd) & Hs).
    assert (Hin : forall a, a ∈ rev l -> a ∈ l) by (intros a Ha; apply elem_of_list_In, in_rev, elem_of_list_In; exact Ha).
    assert (Hst : Forall straight js).
    { clear -Hj Hs Hin. induction Hj as [|a j L js (n & Hn & ->) Hj IH]; constructor.
      - apply (Hs a n); [apply Hin; set_solver|exact Hn].
      - apply IH. intros b Hb. apply Hin. set_solver. }
    assert (Hsf : Forall2 same_frame js js').
    { clear -Hj Hj' Hf. revert js' Hj'. induction Hj as [|a j L js (n & Hn & ->) Hj IH]; intros js' Hj'; inversion Hj' as [|? j' ? js'' (n' & Hn' & ->) Hj'' E1 E2]; subst; constructor.
      - destruct (frozen_at h h' a n Hf Hn) as (n2 & Hn2 & E). assert (n2 = n') as -> by congruence.
        apply bare_eq in E as (_ & Et & _ & _ & Eo & _). split; assumption.
      - apply IH. exact Hj''. }
    assert (Hsteps : steps js js' = lscale m full).
    { apply (steps_of h h' (rev l) js js' Hj Hj').
      - intros a n Ha Hn. apply (Hs a n (Hin a Ha) Hn).
      - rewrite lscale_length. congruence.
      - intros i a n y Hi Hn Hy. rewrite <- Hm in Hi. rewrite (Hpos i a n Hi Hn).
        unfold lscale in Hy. change (map (Rmult m) full) with (Rmult m <$> full) in Hy. rewrite list_lookup_fmap in Hy.
        destruct (full !! i) as [z|]; [|discriminate]. cbn in Hy. apply Some_inj in Hy as <-.
        assert (Ha : a ∈ l). { rewrite Hm in Hi. apply elem_of_list_lookup_2, elem_of_list_In, filter_In in Hi as [Hi _]. apply Hin, elem_of_list_In, Hi. }
        destruct (Hs a n Ha Hn) as [_ ->]. reflexivity. }
    destruct (straight_shift js js' Hst Hsf iso1 iso1 (V3 0 0 0) proper_1 eq_refl) as (Hrt & Htr & Hd').
    { gv; ring. }
    split; [exact Hd'|].
    assert (Hld : length full = length (dirs iso1 js)).
    { clear -Hlen Hd Hj Hs Hin. rewrite Hlen, Hd. generalize (iso1 (T := R)). clear Hlen Hd full.
      induction Hj as [|a j L js (n & Hn & ->) Hj IH]; intros b; [reflexivity|]. cbn [List.filter dirs]. unfold node_movable at 1. rewrite Hn.
      assert (Hin' : forall a, a ∈ L -> a ∈ l) by (intros c Hc; apply Hin; set_solver).
      destruct (Hs a n (Hin a ltac:(set_solver)) Hn) as [[_ Hstr] _].
      destruct (j_type (n_joint n)); [apply (IH Hin')|destruct Hstr|]. cbn. f_equal. apply (IH Hin'). }
    rewrite <- combine_scale; [|apply Forall_map, Forall_true; intros x; reflexivity|rewrite map_length; exact Hld].
    rewrite combine_cols. rewrite Hsteps in Htr. set (v := vsum _ _) in *.
    unfold calc_pose_diff. rewrite Hrt, Htr. unfold lsub.
    set (x := tr (product _ _)). set (y := qscaled_axis _). destruct x as [x1 x2 x3], y as [y1 y2 y3], v as [v1 v2 v3], (tr target) as [g1 g2 g3].
    cbn [vx vy vz zip_with vsub plus]. unfold vsub, plus. cbn [vx vy vz]. change (@ssub R RScalar) with Rminus.
    repeat (apply (f_equal2 (@cons R)); [ring|]). reflexivity.
  Qed.
End Arm.
