(** * URDF: joint conversion and the two name maps *)
From Coq Require Import String Reals ZArith Floats.SpecFloat Lra.
From Flocq Require Import Core IEEE754.BinarySingleNaN.
From stdpp Require Import gmap strings.
From Verif Require Import Scalar ScalarR ScalarF Geometry Joint Link Prog NodeM ChainM SpecJoint SpecValues RangeProofs FloatSub UrdfM SpecUrdf UrdfProofs UrdfProofs2.

Section Conv.
  Context {S T : Type} `{SS : Scalar S} `{ST : Scalar T} (conv : S -> T).
  Lemma joint_from_cases (j : ujoint S) :
    joint_from conv j = match joint_limits_from conv j with
      | Some lim => Some (Joint (uj_name j) (joint_type_from conv j) szero szero lim (isometry_from conv (uj_origin j)) None None)
      | None => None end.
  Proof. unfold joint_from. destruct (joint_limits_from conv j); reflexivity. Qed.
End Conv.

Lemma limits_real (j : ujoint R) :
  (uj_lower j = uj_upper j -> joint_limits_from (fun x : R => x) j = Some None) /\
  (uj_lower j < uj_upper j -> joint_limits_from (fun x : R => x) j = Some (Some (Range (uj_lower j) (uj_upper j))))%R /\
  (uj_upper j < uj_lower j -> joint_limits_from (fun x : R => x) j = None)%R.
Proof.
  unfold joint_limits_from. cbn. unfold Reqb. destruct (Req_EM_T (uj_upper j - uj_lower j) 0) as [E|E].
  - split; [reflexivity|]. split; intros; lra.
  - split; [intros; lra|]. unfold range_new. cbn. unfold Rleb. destruct (Rle_dec (uj_lower j) (uj_upper j)); split; intros; (reflexivity || lra).
Qed.

Local Instance hp53 : Prec_gt_0 53. Proof. reflexivity. Qed.
Local Instance hm53 : Prec_lt_emax 53 1024. Proof. reflexivity. Qed.
Local Instance hp24 : Prec_gt_0 24. Proof. reflexivity. Qed.
Local Instance hm24 : Prec_lt_emax 24 128. Proof. reflexivity. Qed.

(** both are the same finite number *)
Definition same_number (x y : spec_float) : Prop := exists r, sf_value x = Some (Fin r) /\ sf_value y = Some (Fin r).

Section IEEE.
  Context (L L' : libm) (prec emax : Z) (conv : spec_float -> spec_float).
  Context (Hcv : forall x, valid_binary 53 1024 x = true -> valid_binary prec emax (conv x) = true).
  Lemma limits_ieee (j : ujoint spec_float) :
    valid_binary 53 1024 (uj_lower j) = true -> valid_binary 53 1024 (uj_upper j) = true ->
    (same_number (uj_lower j) (uj_upper j) -> joint_limits_from (SS := F64 L) (ST := FScalar prec emax L') conv j = Some None) /\
    (~ same_number (uj_lower j) (uj_upper j) -> val_le (sf_value (conv (uj_lower j))) (sf_value (conv (uj_upper j))) ->
       joint_limits_from (SS := F64 L) (ST := FScalar prec emax L') conv j = Some (Some (Range (conv (uj_lower j)) (conv (uj_upper j))))) /\
    (~ same_number (uj_lower j) (uj_upper j) -> ~ val_le (sf_value (conv (uj_lower j))) (sf_value (conv (uj_upper j))) ->
       joint_limits_from (SS := F64 L) (ST := FScalar prec emax L') conv j = None).
  Proof.
    intros H1 H2. unfold joint_limits_from. cbn [seqb ssub szero F64 FScalar].
    pose proof (sub_zero_value 53 1024 hp53 hm53 (uj_upper j) (uj_lower j) H2 H1) as Hz.
    destruct (range_new_ieee_lemma prec emax L' (conv (uj_lower j)) (conv (uj_upper j)) (Hcv _ H1) (Hcv _ H2)) as [R1 R2].
    destruct (SFeqb _ _).
    - destruct (proj1 Hz eq_refl) as (r & E1 & E2). split; [reflexivity|]. split; intros H; exfalso; apply H; exists r; auto.
    - split; [|split].
      + intros (r & E1 & E2). assert (false = true) by (apply Hz; exists r; auto). discriminate.
      + intros _ Hle. rewrite (R1 Hle). reflexivity.
      + intros _ Hle. rewrite (R2 Hle). reflexivity.
  Qed.
End IEEE.
Lemma val_le_dec a b : val_le a b \/ ~ val_le a b.
Proof.
  destruct a as [[|x|]|], b as [[|y|]|]; cbn; auto. destruct (Rle_dec x y); auto.
Qed.

(** ** the maps between names *)
Section Maps.
  Context {S : Type}.
  Implicit Types (r : robot S).
  Lemma foldl_insert {A} (f g : A -> string) (l : list A) : forall (m : gmap string string) s,
    foldl (fun m x => <[f x := g x]> m) m l !! s =
    match last_idx (fun x => bool_decide (f x = s)) l with Some i => g <$> l !! i | None => m !! s end.
  Proof.
    induction l as [|x l IH]; intros m s; cbn; [reflexivity|]. rewrite IH. destruct (last_idx _ l) as [i|]; [reflexivity|].
    destruct (bool_decide_reflect (f x = s)) as [->|Hne]; [rewrite lookup_insert; reflexivity|rewrite lookup_insert_ne by exact Hne; reflexivity].
  Qed.
  Lemma foldl_insert_key {A} (f g : A -> string) (l : list A) (m : gmap string string) x : NoDup (map f l) -> x ∈ l -> foldl (fun m x => <[f x := g x]> m) m l !! f x = Some (g x).
  Proof.
    intros Hnd Hx. apply elem_of_list_lookup in Hx as [i Hi]. rewrite foldl_insert, (last_idx_key f l (f x) i x Hnd Hi eq_refl), Hi. reflexivity.
  Qed.
  Lemma foldl_insert_some {A} (f g : A -> string) (l : list A) s y : foldl (fun (m : gmap string string) x => <[f x := g x]> m) ∅ l !! s = Some y -> exists x, x ∈ l /\ f x = s /\ g x = y.
  Proof.
    rewrite foldl_insert. destruct (last_idx _ l) as [i|] eqn:E; [|rewrite lookup_empty; discriminate].
    apply last_idx_some in E as (x & Hx & Hd). apply bool_decide_eq_true in Hd. rewrite Hx. cbn. intros H. injection H as <-. exists x. split; [eapply elem_of_list_lookup_2; eauto|auto].
  Qed.
  Lemma foldl_insert_none {A} (f g : A -> string) (l : list A) s : foldl (fun (m : gmap string string) x => <[f x := g x]> m) ∅ l !! s = None <-> forall x, x ∈ l -> f x <> s.
  Proof.
    rewrite foldl_insert. destruct (last_idx _ l) as [i|] eqn:E.
    - apply last_idx_some in E as (x & Hx & Hd). apply bool_decide_eq_true in Hd. rewrite Hx. cbn. split; [discriminate|]. intros H. exfalso. apply (H x); [eapply elem_of_list_lookup_2; eauto|exact Hd].
    - rewrite lookup_empty. split; [|reflexivity]. intros _ x Hx. pose proof (proj1 (last_idx_none _ _) E x Hx) as H. apply bool_decide_eq_false in H. exact H.
  Qed.
  (** the second loop of link_to_joint_map *)
  Lemma links_step (ls : list (ulink S)) : forall m s,
    foldl (fun (m : gmap string string) l => match m !! ul_name l with None => <[ul_name l := ROOT_JOINT_NAME]> m | Some _ => m end) m ls !! s =
    match m !! s with Some x => Some x | None => if bool_decide (s ∈ map ul_name ls) then Some ROOT_JOINT_NAME else None end.
  Proof.
    induction ls as [|l ls IH]; intros m s; cbn [foldl map]; [destruct (m !! s); [reflexivity|]; destruct (bool_decide_reflect (s ∈ @nil string)) as [H|_]; [inversion H|reflexivity]|].
    rewrite IH. destruct (m !! ul_name l) as [x|] eqn:E.
    - destruct (m !! s) as [y|] eqn:Es; [reflexivity|]. destruct (bool_decide_reflect (s ∈ map ul_name ls)) as [H|H], (bool_decide_reflect (s ∈ ul_name l :: map ul_name ls)) as [H'|H']; try reflexivity; exfalso.
      + apply H'. right. exact H.
      + apply elem_of_cons in H' as [->|H']; [congruence|contradiction].
    - destruct (decide (ul_name l = s)) as [<-|Hne].
      + rewrite lookup_insert, E. destruct (bool_decide_reflect (ul_name l ∈ ul_name l :: map ul_name ls)) as [_|H]; [reflexivity|exfalso; apply H; left].
      + rewrite lookup_insert_ne by exact Hne. destruct (m !! s); [reflexivity|].
        destruct (bool_decide_reflect (s ∈ map ul_name ls)) as [H|H], (bool_decide_reflect (s ∈ ul_name l :: map ul_name ls)) as [H'|H']; try reflexivity; exfalso.
        * apply H'. right. exact H.
        * apply elem_of_cons in H' as [->|H']; [congruence|contradiction].
  Qed.
  Lemma l2j_lookup r s : link_to_joint_map r !! s =
    match foldl (fun (m : gmap string string) j => <[uj_child j := uj_name j]> m) ∅ (r_joints r) !! s with
    | Some x => Some x | None => if bool_decide (s ∈ map ul_name (r_links r)) then Some ROOT_JOINT_NAME else None end.
  Proof. unfold link_to_joint_map. apply links_step. Qed.
  (** the second loop of joint_to_link_map *)
  Lemma root_step_other (ls : list (ulink S)) s : s <> ROOT_JOINT_NAME -> forall m,
    foldl (fun (m : gmap string string) l => match m !! ul_name l with None => <[ROOT_JOINT_NAME := ul_name l]> m | Some _ => m end) m ls !! s = m !! s.
  Proof.
    intros Hs. induction ls as [|l ls IH]; intros m; cbn [foldl]; [reflexivity|]. rewrite IH. destruct (m !! ul_name l); [reflexivity|]. apply lookup_insert_ne. auto.
  Qed.
  Lemma root_step_fold (m0 : gmap string string) (ls : list (ulink S)) : (forall l, l ∈ ls -> ul_name l <> ROOT_JOINT_NAME) -> forall m, (forall s, s <> ROOT_JOINT_NAME -> m !! s = m0 !! s) ->
    foldl (fun (m : gmap string string) l => match m !! ul_name l with None => <[ROOT_JOINT_NAME := ul_name l]> m | Some _ => m end) m ls !! ROOT_JOINT_NAME =
    foldl (fun o l => match (match m0 !! ul_name l with None => Some (ul_name l) | Some _ => None end) with Some y => Some y | None => o end) (m !! ROOT_JOINT_NAME) ls.
  Proof.
    intros Hne. induction ls as [|l ls IH]; intros m Hm; cbn [foldl]; [reflexivity|]. assert (Hl : ul_name l <> ROOT_JOINT_NAME) by (apply Hne; left). rewrite <- (Hm _ Hl).
    rewrite IH.
    - destruct (m !! ul_name l); [reflexivity|]. rewrite lookup_insert. reflexivity.
    - intros l' Hl'. apply Hne. right. exact Hl'.
    - intros s Hs. destruct (m !! ul_name l); [auto|]. rewrite lookup_insert_ne by auto. auto.
  Qed.
End Maps.
