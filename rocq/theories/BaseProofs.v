(** * The solver on a robot carried elsewhere *)
From Coq Require Import String Reals Lra Lia NArith.
From stdpp Require Import gmap.
From Verif Require Import Scalar ScalarR Geometry Joint Link Prog NodeM ChainM FuncsM IkM RunLemmas SpecJoint SpecNode JointProofs NodeProofs
  SpecGraph GraphProofs LinkProofs SpecChain ChainProofs SpecFK FKProofs SpecIk IkProofs IkProofs2 JacProofs SpecGeom RGeom GeomProofs PoseDiff JacReal
  SpecStep LinAlgR SvdM SpecLin SvdDet SpecBase BaseLin.
Local Open Scope R_scope.

(** ** Geometry *)
Lemma qscaled_turned (g q : quat R) : unit_quat g -> qscaled_axis (qmul (qmul g q) (qconj g)) = turn g (qscaled_axis q).
Proof.
  intros Hg. set (q' := qmul (qmul g q) (qconj g)).
  assert (Ew : qw q' = qw q).
  { unfold q'. destruct g as [a b c d], q as [x y z w]. unfold unit_quat in Hg. cbn in Hg. unfold qmul, qconj. cbn.
    transitivity (w * (a * a + b * b + c * c + d * d)); [ring|rewrite Hg; ring]. }
  assert (Ev : qvec q' = turn g (qvec q)).
  { rewrite (turn_hturn g _ Hg). unfold q', hturn. destruct g as [a b c d], q as [x y z w]. unfold unit_quat in Hg. cbn in Hg. gv; ring. }
  assert (En : vneg (turn g (qvec q)) = turn g (vneg (qvec q))).
  { destruct (qvec q) as [x y z]. unfold vneg, turn. cbn. apply V3_eq; cbn; ring. }
  assert (El : forall v, vnorm (turn g v) = vnorm v) by (intros v; rewrite !vnorm_len; apply len_turn; exact Hg).
  unfold qscaled_axis, qaxis, qangle. rewrite Ew, Ev, El. cbv zeta.
  set (v := if sge (qw q) szero then qvec q else vneg (qvec q)).
  assert (E : (if sge (qw q) szero then turn g (qvec q) else vneg (turn g (qvec q))) = turn g v) by (unfold v; destruct (sge (qw q) szero); [reflexivity|exact En]).
  rewrite E, El. destruct (sgt (vnorm v) szero).
  - rewrite !vscale_times, turn_times. f_equal. set (s := vnorm v). destruct v as [x y z]. unfold vdivs, turn. cbn. apply V3_eq; cbn; unfold Rdiv; ring.
  - symmetry. apply turn_zero.
Qed.
Definition six (a b : vec3 R) : list R := [vx a; vy a; vz a; vx b; vy b; vz b].
Lemma six_turned q a b : turn_rows q (six a b) = six (turn q a) (turn q b).
Proof. destruct a, b. reflexivity. Qed.
Lemma pose_diff_turned g a b : proper g -> proper a -> proper b ->
  calc_pose_diff (iso_mul g a) (iso_mul g b) = turn_rows (rt g) (calc_pose_diff a b).
Proof.
  intros Hg Ha Hb. destruct (pose_diff_halves (iso_mul g a) (iso_mul g b)) as (w' & -> & Ew'). destruct (pose_diff_halves a b) as (w & -> & Ew).
  change ([vx (tr a) - vx (tr b); vy (tr a) - vy (tr b); vz (tr a) - vz (tr b); vx w; vy w; vz w]) with (six (minus (tr a) (tr b)) w).
  change ([vx (tr (iso_mul g a)) - vx (tr (iso_mul g b)); vy (tr (iso_mul g a)) - vy (tr (iso_mul g b)); vz (tr (iso_mul g a)) - vz (tr (iso_mul g b)); vx w'; vy w'; vz w'])
    with (six (minus (tr (iso_mul g a)) (tr (iso_mul g b))) w').
  rewrite six_turned. f_equal.
  - rewrite !iso_mul_tr_eq, turn_minus. unfold minus, plus. apply V3_eq; cbn; ring.
  - subst w w'. rewrite <- (qscaled_turned (rt g) _ Hg). f_equal. cbn [iso_mul rt].
    assert (Ec : forall x y : quat R, qconj (qmul x y) = qmul (qconj y) (qconj x)) by (intros [] []; apply Qt_eq; cbn; ring).
    rewrite Ec, !qmul_assoc. reflexivity.
Qed.
Lemma jcol_turned g p w ty col : proper g -> proper w -> jcol p w ty = Some col ->
  jcol (tr (iso_mul g (Iso p q1))) (iso_mul g w) ty = Some (turn_rows (rt g) col).
Proof.
  intros Hg Hw. destruct ty as [|axis|axis]; cbn [jcol]; intros E; [discriminate| |]; injection E as <-; f_equal.
  - set (a := qrot (rt w) axis). assert (Ea : qrot (rt (iso_mul g w)) axis = turn (rt g) a) by (unfold a; rewrite !qrot_turn; apply turn_mul; assumption). rewrite Ea.
    set (d := vcross a (vsub p (tr w))).
    transitivity (six (turn (rt g) d) (turn (rt g) a)); [|symmetry; exact (six_turned (rt g) d a)]. unfold six. assert (Ed : vcross (turn (rt g) a) (vsub (tr (iso_mul g (Iso p q1))) (tr (iso_mul g w))) = turn (rt g) d).
    { unfold d. rewrite !vcross_cross, !vsub_minus, <- cross_turn by exact Hg. f_equal. rewrite !iso_mul_tr_eq, turn_minus. cbn [tr]. unfold minus, plus. apply V3_eq; cbn; ring. }
    rewrite Ed. reflexivity.
  - set (a := qrot (rt w) axis). assert (Ea : qrot (rt (iso_mul g w)) axis = turn (rt g) a) by (unfold a; rewrite !qrot_turn; apply turn_mul; assumption). rewrite Ea.
    transitivity (six (turn (rt g) a) (turn (rt g) (V3 0 0 0))); [rewrite turn_zero; reflexivity|symmetry; exact (six_turned (rt g) a (V3 0 0 0))].
Qed.

(** ** Carried heaps *)
Section Carried.
  Variables (g : iso R) (root : nat).
  Definition tilt (a : nat) (n : node R) : node R := if decide (a = root) then with_origin n (iso_mul g (j_origin (n_joint n))) else n.
  Definition nrel (a : nat) (n n' : node R) : Prop := same_but_caches (tilt a n) n'.
  Lemma nrel_fields a n n' : nrel a n n' ->
    j_name (n_joint n') = j_name (n_joint n) /\ j_type (n_joint n') = j_type (n_joint n) /\
    j_position (n_joint n') = j_position (n_joint n) /\ j_velocity (n_joint n') = j_velocity (n_joint n) /\
    j_limits (n_joint n') = j_limits (n_joint n) /\ j_origin (n_joint n') = j_origin (n_joint (tilt a n)) /\
    n_parent n' = n_parent n /\ n_children n' = n_children n /\
    n_mimic_parent n' = n_mimic_parent n /\ n_mimic_children n' = n_mimic_children n /\
    n_mimic n' = n_mimic n /\ n_link n' = n_link n.
  Proof. unfold nrel, same_but_caches, tilt. destruct (decide (a = root)); intros H; exact H. Qed.
  Lemma nrel_intro a n n' j j' : nrel a n n' -> j_name j' = j_name j -> j_type j' = j_type j -> j_position j' = j_position j -> j_velocity j' = j_velocity j ->
    j_limits j' = j_limits j -> j_origin j = j_origin (n_joint n) -> j_origin j' = j_origin (n_joint n') -> nrel a (set_n_joint n j) (set_n_joint n' j').
  Proof.
    intros H E1 E2 E3 E4 E5 E6 E7. unfold nrel, same_but_caches, tilt in *. destruct (decide (a = root)); cbn in *; rewrite E6, E7; destruct_and!; repeat split; assumption.
  Qed.

  Fixpoint psim {A} (Q : A -> A -> Prop) (p p' : prog R A) {struct p} : Prop :=
    match p, p' with
    | Ret a, Ret b => Q a b
    | Lock a k, Lock b k' => b = a /\ psim Q k k'
    | Unlock a k, Unlock b k' => b = a /\ psim Q k k'
    | Get a k, Get b k' => b = a /\ forall n n', nrel a n n' -> psim Q (k n) (k' n')
    | Put a n k, Put b n' k' => b = a /\ nrel a n n' /\ psim Q k k'
    | Upgrade a k, Upgrade b k' => b = a /\ forall x, psim Q (k x) (k' x)
    | Panic m, Panic m' => m' = m
    | NoFuel, NoFuel => True
    | _, _ => False
    end.
  Lemma psim_bind {A B} (Q : A -> A -> Prop) (Q' : B -> B -> Prop) (p p' : prog R A) (f f' : A -> prog R B) :
    psim Q p p' -> (forall a b, Q a b -> psim Q' (f a) (f' b)) -> psim Q' (bind p f) (bind p' f').
  Proof.
    intros Hp Hf. revert p' Hp. induction p; intros []; cbn; intros Hp; try contradiction; auto.
    all: try (destruct Hp as [-> Hp]; split; [reflexivity|]; auto).
    destruct Hp as [Hn Hp]. split; [exact Hn|]. auto.
  Qed.
  Lemma psim_impl {A} (Q Q' : A -> A -> Prop) (p p' : prog R A) : (forall a b, Q a b -> Q' a b) -> psim Q p p' -> psim Q' p p'.
  Proof.
    intros HQ. revert p'. induction p; intros []; cbn; intros Hp; try contradiction; auto.
    all: try (destruct Hp as [-> Hp]; split; [reflexivity|]; auto).
    destruct Hp as [Hn Hp]. split; [exact Hn|]. auto.
  Qed.
  Notation srel := (carried_states g root). Notation orel Q := (carried_outcome Q g root).
  Lemma srel_at s s' a : srel s s' -> match heap s !! a, heap s' !! a with Some n, Some n' => nrel a n n' | None, None => True | _, _ => False end.
  Proof. intros [H _]. exact (H a). Qed.
  Lemma psim_run {A} (Q : A -> A -> Prop) t (p : prog R A) : forall p' s s', psim Q p p' -> srel s s' -> orel Q (run t p s) (run t p' s').
  Proof.
    induction p as [x|a k IH|a k IH|a k IH|a n k IH|n k IH|a k IH|m|]; intros [] s s'; cbn [psim]; try contradiction; intros Hp Hs; cbn [run].
    - split; assumption.
    - destruct Hp as [-> Hp]. pose proof (srel_at s s' a Hs) as Ha. destruct Hs as (Hh & En & El & Ep).
      destruct (heap s !! a), (heap s' !! a); try contradiction; [|exact I]. rewrite El, Ep. destruct (locks s !! a); [split; [reflexivity|split; auto]|].
      destruct (decide (a ∈ poison s)).
      + split; [reflexivity|]. unfold unwind, carried_states. cbn. rewrite El, Ep. auto.
      + apply IH; [exact Hp|]. unfold carried_states, set_locks. cbn. auto.
    - destruct Hp as [-> Hp]. destruct Hs as (Hh & En & El & Ep). rewrite El. destruct (decide _); [|exact I].
      apply IH; [exact Hp|]. unfold carried_states, set_locks. cbn. auto.
    - destruct Hp as [-> Hp]. pose proof (srel_at s s' a Hs) as Ha. pose proof Hs as (Hh & En & El & Ep). rewrite El. destruct (decide _); [|exact I].
      destruct (heap s !! a), (heap s' !! a); try contradiction; [|exact I]. apply IH; [apply Hp; exact Ha|exact Hs].
    - destruct Hp as (-> & Hn & Hp). destruct Hs as (Hh & En & El & Ep). rewrite El. destruct (decide _); [|exact I].
      apply IH; [exact Hp|]. unfold carried_states, set_heap. cbn. split; [|auto]. intros b. destruct (decide (b = a)) as [->|Hb].
      + rewrite !lookup_insert. exact Hn.
      + rewrite !lookup_insert_ne by auto. apply Hh.
    - destruct Hp as [-> Hp]. pose proof (srel_at s s' a Hs) as Ha.
      assert (E : bool_decide (is_Some (heap s' !! a)) = bool_decide (is_Some (heap s !! a))).
      { apply bool_decide_ext. destruct (heap s !! a), (heap s' !! a); try contradiction; split; eauto; intros [? ?]; discriminate. }
      rewrite E. apply IH; [apply Hp|exact Hs].
    - subst msg. split; [reflexivity|]. destruct Hs as (Hh & En & El & Ep). unfold unwind, carried_states. cbn. rewrite El, Ep. auto.
    - exact Hs.
  Qed.
  Lemma orel_bind {A B} (Q : A -> A -> Prop) (Q' : B -> B -> Prop) t (p p' : prog R A) (f f' : A -> prog R B) s s' :
    orel Q (run t p s) (run t p' s') ->
    (forall a b s1 s1', run t p s = Done a s1 -> run t p' s' = Done b s1' -> Q a b -> srel s1 s1' -> orel Q' (run t (f a) s1) (run t (f' b) s1')) ->
    orel Q' (run t (bind p f) s) (run t (bind p' f') s').
  Proof.
    intros Hp Hf. rewrite !run_bind. destruct (run t p s), (run t p' s'); cbn in Hp |- *; try contradiction; auto.
    destruct Hp as [H1 H2]. apply Hf; auto.
  Qed.

  (** *** programs that do not look at origins *)
  Lemma psim_mapM {A B} (P : A -> Prop) (Q : B -> B -> Prop) (f f' : A -> prog R B) l : (forall a, psim Q (f a) (f' a)) -> psim (Forall2 Q) (mapM f l) (mapM f' l).
  Proof.
    intros H. induction l as [|x l IH]; cbn [mapM]; [constructor|]. eapply psim_bind; [apply H|]. intros y y' Hy. eapply psim_bind; [exact IH|]. intros ys ys' Hys. constructor; assumption.
  Qed.
  Lemma Forall2_eq {A} (l l' : list A) : Forall2 eq l l' -> l = l'.
  Proof. induction 1; congruence. Qed.
  Lemma sim_positions arm : psim eq (joint_positions arm) (joint_positions arm).
  Proof.
    unfold joint_positions, iter_joints. eapply psim_impl; [apply @Forall2_eq|]. apply (psim_mapM (fun _ => True)). intros a. cbn. split; [reflexivity|]. split; [reflexivity|].
    intros n n' Hn. pose proof (nrel_fields _ _ _ Hn) as (Fn & Ft & Fp & Fv & Fl & Fo & Fpa & Fch & Fmp & Fmc & Fm & Fk). eapply (psim_bind eq).
    - unfold joint_position. rewrite Ft, Fp. destruct (j_type (n_joint n)); cbn; auto.
    - intros x y ->. cbn. auto.
  Qed.
  Lemma sim_clamped_node a p : psim eq (node_set_joint_position_clamped a p) (node_set_joint_position_clamped a p).
  Proof.
    cbn. split; [reflexivity|]. split; [reflexivity|]. intros n n' Hn. pose proof (nrel_fields _ _ _ Hn) as (Fn & Ft & Fp & Fv & Fl & Fo & Fpa & Fch & Fmp & Fmc & Fm & Fk). split; [reflexivity|]. split; [|auto].
    unfold joint_set_clamped, is_movable. rewrite Ft. destruct (j_type (n_joint n)) eqn:Et; cbn [negb].
    - apply nrel_intro; auto; congruence.
    - apply nrel_intro; cbn; auto; try congruence. rewrite Fl. reflexivity.
    - apply nrel_intro; cbn; auto; try congruence. rewrite Fl. reflexivity.
  Qed.
  Lemma sim_clamped arm ps : psim eq (set_joint_positions_clamped arm ps) (set_joint_positions_clamped arm ps).
  Proof.
    unfold set_joint_positions_clamped. induction (zip (c_movable arm) ps) as [|[a p] l IH]; cbn [forM_]; [reflexivity|].
    eapply psim_bind; [apply sim_clamped_node|]. intros _ _ _. exact IH.
  Qed.
  Lemma set_rel a n n' p : nrel a n n' -> snd (joint_set (n_joint n') p) = snd (joint_set (n_joint n) p) /\
    nrel a (set_n_joint n (fst (joint_set (n_joint n) p))) (set_n_joint n' (fst (joint_set (n_joint n') p))).
  Proof.
    intros Hn. pose proof (nrel_fields _ _ _ Hn) as (Fn & Ft & Fp & Fv & Fl & Fo & Fpa & Fch & Fmp & Fmc & Fm & Fk). unfold joint_set, is_movable. rewrite Fn, Ft, Fl.
    destruct (j_type (n_joint n)) eqn:Et; cbn [negb fst snd].
    1: { split; [reflexivity|]. apply nrel_intro; auto; congruence. }
    all: destruct (j_limits (n_joint n)) as [r|] eqn:El; [destruct (negb (is_valid r p))|]; cbn [fst snd]; (split; [reflexivity|]); apply nrel_intro; cbn; auto; congruence.
  Qed.
  Lemma sim_mimic self p cs : psim eq (mimic_loop self p cs) (mimic_loop self p cs).
  Proof.
    induction cs as [|c cs IH]; cbn [mimic_loop]; [reflexivity|]. cbn [lock get bind psim]. split; [reflexivity|]. split; [reflexivity|]. intros n n' Hn.
    pose proof (nrel_fields _ _ _ Hn) as (Fn & Ft & Fp & Fv & Fl & Fo & Fpa & Fch & Fmp & Fmc & Fm & Fk). rewrite Fm. destruct (n_mimic n) as [m|].
    - destruct (set_rel c n n' (mimic_position m p) Hn) as [E Hr]. cbn zeta. rewrite E. cbn [put bind psim]. split; [reflexivity|]. split; [exact Hr|].
      destruct (snd (joint_set (n_joint n) (mimic_position m p))); cbn [unlock bind psim]; auto.
    - cbn. split; [reflexivity|]. split; [reflexivity|]. intros m m' Hm. split; [reflexivity|]. split; [reflexivity|]. split; [reflexivity|]. intros o o' Ho. split; [reflexivity|]. split; [reflexivity|].
      pose proof (nrel_fields _ _ _ Hm) as (-> & _). pose proof (nrel_fields _ _ _ Ho) as (-> & _). reflexivity.
  Qed.
  Lemma sim_set a p : psim eq (node_set_joint_position a p) (node_set_joint_position a p).
  Proof.
    unfold node_set_joint_position. cbn [lock get bind psim]. split; [reflexivity|]. split; [reflexivity|]. intros n n' Hn.
    pose proof (nrel_fields _ _ _ Hn) as (Fn & Ft & Fp & Fv & Fl & Fo & Fpa & Fch & Fmp & Fmc & Fm & Fk). rewrite Fmp. destruct (n_mimic_parent n); [cbn; auto|].
    destruct (set_rel a n n' p Hn) as [E Hr]. cbn zeta. rewrite E. cbn [put bind psim]. split; [reflexivity|]. split; [exact Hr|].
    destruct (snd (joint_set (n_joint n) p)); [|cbn; auto]. rewrite Fmc. eapply psim_bind; [apply sim_mimic|]. intros x y ->. cbn. auto.
  Qed.
  Lemma sim_set_positions arm ps : psim eq (set_joint_positions arm ps) (set_joint_positions arm ps).
  Proof.
    unfold set_joint_positions. destruct (decide _); [|reflexivity]. induction (zip (c_movable arm) ps) as [|[a p] l IH]; cbn [forM_try]; [reflexivity|].
    eapply psim_bind; [apply sim_set|]. intros x y <-. destruct x; [exact IH|reflexivity].
  Qed.
  Lemma sim_ignored arm names : psim eq (ignored_indices arm names) (ignored_indices arm names).
  Proof.
    induction names as [|nm names IH]; cbn [ignored_indices]; [reflexivity|].
    eapply (psim_bind eq).
    - induction (c_movable arm) as [|a l IHl]; cbn [positionM]; [reflexivity|]. eapply (psim_bind eq).
      + cbn. split; [reflexivity|]. split; [reflexivity|]. intros n n' Hn. split; [reflexivity|]. pose proof (nrel_fields _ _ _ Hn) as (-> & _). reflexivity.
      + intros x y <-. destruct x; [reflexivity|]. eapply psim_bind; [exact IHl|]. intros x y <-. reflexivity.
    - intros x y <-. destruct x; [|reflexivity]. eapply psim_bind; [exact IH|]. intros x y <-. destruct x; reflexivity.
  Qed.
  (** pure programs *)
  Definition pure {A} (p : prog R A) : Prop := match p with Ret _ | Panic _ | NoFuel => True | _ => False end.
  Lemma sim_pure {A} (p : prog R A) : pure p -> psim eq p p.
  Proof. destruct p; cbn; try contradiction; auto. Qed.
  Lemma pure_bind {A B} (p : prog R A) (f : A -> prog R B) : pure p -> (forall x, pure (f x)) -> pure (bind p f).
  Proof. destruct p; cbn; try contradiction; auto. Qed.
  Lemma pure_usize ovf a b : pure (usize_sub (T := R) ovf a b).
  Proof. unfold usize_sub. repeat destruct (decide _); cbn; auto. destruct ovf; exact I. Qed.
  Lemma pure_columns {A} ovf idx : forall i (l : list A), pure (remove_columns (T := R) ovf i idx l).
  Proof.
    induction idx as [|j idx IH]; intros i l; cbn [remove_columns]; [exact I|]. apply pure_bind; [apply pure_usize|]. intros k. apply pure_bind; [|intros; apply IH].
    unfold remove_nth. destruct (decide _); exact I.
  Qed.
  Lemma pure_rows idx : forall l, pure (insert_rows (T := R) idx l).
  Proof.
    induction idx as [|j idx IH]; intros l; cbn [insert_rows]; [exact I|]. apply pure_bind; [|intros; apply IH]. unfold insert_nth. destruct (decide _); exact I.
  Qed.
  Lemma pure_expect {A} (o : option A) m : pure (expect (T := R) o m).
  Proof. destruct o; exact I. Qed.
  Lemma pure_new ovf la sv orig err jac av req idx : pure (new_positions (T := R) ovf la sv orig err jac av req idx).
  Proof.
    unfold new_positions. destruct (decide _).
    - destruct (nullspace_function sv).
      + apply pure_bind; [apply pure_expect|]. intros P. apply pure_bind; [apply pure_expect|]. intros x. apply pure_bind; [apply pure_columns|]. intros y.
        destruct (decide _); [|exact I]. apply pure_bind; [apply pure_rows|]. intros z. exact I.
      + apply pure_bind; [apply pure_expect|]. intros P. apply pure_bind; [apply pure_rows|]. intros z. exact I.
    - destruct (lu_solve la jac err); exact I.
  Qed.
  Lemma sim_columns {A} (f : A -> A) ovf idx : forall i (l : list A),
    psim (fun l l' => l' = map f l) (remove_columns ovf i idx l) (remove_columns ovf i idx (map f l)).
  Proof.
    induction idx as [|j idx IH]; intros i l; cbn [remove_columns]; [reflexivity|].
    eapply (psim_bind eq); [apply sim_pure, pure_usize|]. intros k _ <-. eapply (psim_bind (fun l l' => l' = map f l)); [|intros x y ->; apply IH].
    unfold remove_nth. rewrite map_length. destruct (decide _); [|reflexivity]. cbn. rewrite firstn_map, skipn_map, map_app. reflexivity.
  Qed.
  Lemma new_turned ovf la sv orig err J av req idx k q : frame_free la -> unit_quat q -> tidy J -> m_rows J = (3 * k)%nat -> length err = m_rows J ->
    new_positions ovf la sv orig (turn_rows q err) (turned q J) av req idx = new_positions ovf la sv orig err J av req idx.
  Proof.
    intros Hf Hq HJ Hk He. destruct (Hf q J k Hq HJ Hk) as [H1 H2]. destruct (H1 err He) as [E1 E2]. unfold new_positions. rewrite E1, E2.
    destruct (decide _); [|reflexivity]. destruct (nullspace_function sv) as [f|]; [|reflexivity].
    destruct (pinv la J) as [P|], (pinv la (turned q J)) as [P'|]; try contradiction; [|reflexivity]. destruct H2 as [Er Em]. cbn [expect bind].
    destruct (f orig) as [sub|]; [|reflexivity]. cbn [expect bind]. pose proof (pure_columns ovf idx 0 sub) as Hp. destruct (remove_columns ovf 0 idx sub) as [sub'| | | | | | | |]; try contradiction; [|reflexivity|reflexivity].
    cbn [bind]. rewrite Er. assert (Ec : length (m_cols (turned q J)) = length (m_cols J)) by (unfold turned; cbn [m_cols]; apply map_length). rewrite Ec.
    destruct (decide _); [|reflexivity]. rewrite (Em err He). assert (E : mat_mul P' (turned q J) = mat_mul P J); [|rewrite E; reflexivity].
    unfold mat_mul, turned. cbn [m_cols]. rewrite Er. f_equal. rewrite map_map. apply map_ext_in. intros c Hc. apply Em.
    unfold tidy in HJ. rewrite Forall_forall in HJ. apply HJ, elem_of_list_In. exact Hc.
  Qed.
End Carried.
