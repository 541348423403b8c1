(** * LU decomposition over the reals *)
From Coq Require Import String Reals Lra.
From stdpp Require Import gmap.
From Verif Require Import Scalar ScalarR Geometry Joint Link Prog NodeM ChainM FuncsM IkM SpecNode SpecStep SvdM SpecLin LinAlgR LuM.

Section Gauss.
  Context {T : Type} `{Sc : Scalar T}.
  (** elimination of the right side along with the matrix *)
  Fixpoint gauss (n : nat) (cols : list (list T)) (b : list T) : option (list T) :=
    match n, cols with
    | S n, c0 :: cs =>
        let piv := icamax c0 in
        let zero := seqb (nth piv c0 szero) szero in
        let k := if zero then 0 else piv in
        let c0' := swap_rows k c0 in
        let cs' := map (swap_rows k) cs in
        let b' := swap_rows k b in
        let coeffs := if zero then tail c0' else map (fun x => smul x (sdiv sone (nth piv c0 szero))) (tail c0') in
        let sub := if zero then map tail cs' else map (fun c => axpy (sneg (first c)) coeffs (tail c)) cs' in
        match gauss n sub (axpy (sneg (sdiv (first b') sone)) coeffs (tail b')) with
        | None => None
        | Some xs =>
            let x' := foldr (fun p y => sadd (smul (smul (sneg (snd p)) (fst p)) sone) (smul sone y)) (first b') (zip (map first cs') xs) in
            if seqb (first c0') szero then None else Some (sdiv x' (first c0') :: xs)
        end
    | _, _ => Some []
    end.
  Lemma swap_rows_length k (l : list T) : length (swap_rows k l) = length l.
  Proof. destruct k, l as [|x l]; cbn; try reflexivity. destruct (l !! k); [|reflexivity]. cbn. rewrite insert_length. reflexivity. Qed.
  Lemma swap_rows_zip (f : T -> T -> T) k a b : length a = length b ->
    swap_rows k (zip_with f a b) = zip_with f (swap_rows k a) (swap_rows k b).
  Proof.
    destruct k as [|k]; [destruct a, b; reflexivity|]. destruct a as [|x a], b as [|y b]; intros E; try discriminate; [reflexivity|].
    injection E as E. cbn. destruct (a !! k) as [u|] eqn:Ha.
    - destruct (lookup_lt_is_Some_2 b k) as [v Hb]; [apply lookup_lt_Some in Ha; lia|]. rewrite Hb.
      erewrite (proj2 (lookup_zip_with_Some _ _ _ _ _)) by eauto. cbn. f_equal. symmetry.
      apply list_eq. intros i. destruct (decide (i = k)) as [->|Hi].
      + rewrite list_lookup_insert by (rewrite zip_with_length; apply lookup_lt_Some in Ha, Hb; lia).
        apply lookup_zip_with_Some. exists x, y. split; [reflexivity|].
        split; apply list_lookup_insert; eapply lookup_lt_Some; eauto.
      + rewrite list_lookup_insert_ne by congruence. rewrite !lookup_zip_with, !list_lookup_insert_ne by congruence. reflexivity.
    - destruct (b !! k) eqn:Hb; [apply lookup_lt_Some in Hb; apply lookup_ge_None in Ha; lia|].
      assert (zip_with f a b !! k = None) as -> by (apply lookup_ge_None; rewrite zip_with_length; apply lookup_ge_None in Ha, Hb; lia).
      reflexivity.
  Qed.
  Lemma permute_length f : forall b : list T, length (permute f b) = length b.
  Proof.
    induction f as [|piv d lo r rest IH]; intros b; cbn; [reflexivity|].
    pose proof (swap_rows_length piv b) as E. destruct (swap_rows piv b) as [|x b']; cbn in *; [lia|]. rewrite IH. exact E.
  Qed.
  Lemma permute_zip (g : T -> T -> T) f : forall a b, length a = length b ->
    permute f (zip_with g a b) = zip_with g (permute f a) (permute f b).
  Proof.
    induction f as [|piv d lo r rest IH]; intros a b E; cbn; [reflexivity|].
    rewrite swap_rows_zip by exact E.
    pose proof (swap_rows_length piv a) as Ea. pose proof (swap_rows_length piv b) as Eb.
    destruct (swap_rows piv a) as [|x a'], (swap_rows piv b) as [|y b']; cbn in *; try reflexivity; try lia.
    f_equal. apply IH. lia.
  Qed.
  Lemma permute_axpy a f x y : length x = length y -> permute f (axpy a x y) = axpy a (permute f x) (permute f y).
  Proof. intros E. unfold axpy. apply permute_zip. exact E. Qed.
  Definition square (n : nat) (cols : list (list T)) : Prop := length cols = n /\ Forall (fun c => length c = n) cols.
  Lemma tail_length_1 {A} (l : list A) n : length l = S n -> length (tail l) = n.
  Proof. destruct l; cbn; lia. Qed.
  Lemma axpy_length a x y : length x = length y -> length (axpy a x y) = length x.
  Proof. intros E. unfold axpy. rewrite zip_with_length. lia. Qed.
  Lemma swap_cols n k (cs : list (list T)) : Forall (fun c => length c = n) cs -> Forall (fun c => length c = n) (map (swap_rows k) cs).
  Proof. intros H. apply Forall_map. eapply Forall_impl; [exact H|]. cbn. intros c E. rewrite swap_rows_length. exact E. Qed.
  Lemma gauss_lu n : forall cols b, square n cols -> length b = n ->
    solve_upper (lu_factor n cols) (solve_lower (lu_factor n cols) (permute (lu_factor n cols) b)) = gauss n cols b.
  Proof.
    induction n as [|n IH]; intros cols b [Hl Hc] Hb; [destruct cols; reflexivity|].
    destruct cols as [|c0 cs]; [discriminate|]. injection Hl as Hl. apply Forall_cons in Hc as [Hc0 Hcs].
    cbn [lu_factor gauss]. destruct (seqb (nth (icamax c0) c0 szero) szero) eqn:Hz.
    - assert (Hid : forall c : list T, swap_rows 0 c = c) by (intros []; reflexivity). rewrite (List.map_ext _ _ Hid), List.map_id, !Hid.
      destruct b as [|x b]; [discriminate|]. injection Hb as Hb. cbn [permute swap_rows solve_lower solve_upper first nth tail].
      set (f := lu_factor n (map tail cs)).
      rewrite <- permute_axpy by (rewrite (tail_length_1 c0 n); congruence).
      unfold f. rewrite IH; [reflexivity| |].
      + split; [rewrite map_length; exact Hl|]. apply Forall_map. eapply Forall_impl; [exact Hcs|]. cbn. intros c. apply tail_length_1.
      + rewrite axpy_length by (rewrite (tail_length_1 c0 n); congruence). apply tail_length_1. exact Hc0.
    - set (k := icamax c0) in *. pose proof (swap_rows_length k b) as Eb. pose proof (swap_rows_length k c0) as Ec.
      pose proof (swap_cols _ k cs Hcs) as Hcs'.
      cbn [permute]. destruct (swap_rows k b) as [|x b']; [cbn in Eb; lia|]. cbn [solve_lower solve_upper first nth tail].
      set (coeffs := map _ (tail (swap_rows k c0))). set (sub := map _ (map (swap_rows k) cs)).
      assert (Hco : length coeffs = n) by (unfold coeffs; rewrite map_length; apply tail_length_1; lia).
      assert (Hb' : length b' = n) by (cbn in Eb; lia).
      rewrite <- permute_axpy by congruence. rewrite IH; [reflexivity| |rewrite axpy_length; congruence].
      split; [unfold sub; rewrite !map_length; exact Hl|]. unfold sub. apply Forall_map. eapply Forall_impl; [exact Hcs'|].
      cbn. intros c E. rewrite axpy_length; [exact Hco|]. rewrite (tail_length_1 c n E). exact Hco.
  Qed.
End Gauss.

Local Open Scope R_scope.
Lemma combine_split n cols : Forall (fun c => length c = S n) cols -> forall x, combine (S n) cols x = dot (map first cols) x :: combine n (map tail cols) x.
Proof.
  induction 1 as [|c cols Hc H IH]; intros [|y x]; cbn [combine map dot]; try reflexivity.
  rewrite IH. destruct c as [|u c]; [discriminate|]. reflexivity.
Qed.
Lemma swap_rows_repeat k (x : R) n : swap_rows k (repeat x n) = repeat x n.
Proof.
  destruct k, n as [|n]; cbn; try reflexivity. destruct (repeat x n !! k) as [y|] eqn:E; [|reflexivity].
  assert (y = x) as -> by (apply elem_of_list_lookup_2, elem_of_list_In, repeat_spec in E; exact E). f_equal. apply list_insert_id. exact E.
Qed.
Lemma swap_rows_twice k (l : list R) : swap_rows k (swap_rows k l) = l.
Proof.
  destruct k as [|k]; [destruct l; reflexivity|]. destruct l as [|x l]; [reflexivity|]. cbn. destruct (l !! k) as [y|] eqn:E.
  - cbn. rewrite list_lookup_insert by (eapply lookup_lt_Some; eauto). rewrite list_insert_insert. f_equal. apply list_insert_id. exact E.
  - cbn. rewrite E. reflexivity.
Qed.
Lemma combine_swap n k cols : Forall (fun c => length c = n) cols -> forall x, combine n (map (swap_rows k) cols) x = swap_rows k (combine n cols x).
Proof.
  induction 1 as [|c cols Hc H IH]; intros [|y x]; cbn [combine map]; try (rewrite swap_rows_repeat; reflexivity).
  rewrite IH. symmetry. apply swap_rows_zip. rewrite combine_length by exact H. exact Hc.
Qed.
Lemma axpy_R a (x y : list R) : axpy a x y = zip_with (fun x y => y + a * x) x y.
Proof. unfold axpy. apply zip_ext. intros u v. cbn. ring. Qed.
(** the eliminated columns *)
Lemma combine_eliminated n coeffs cs : length coeffs = n -> Forall (fun c => length c = S n) cs -> forall x,
  combine n (map (fun c => axpy (- first c) coeffs (tail c)) cs) x = zip_with (fun l y => y + - dot (map first cs) x * l) coeffs (combine n (map tail cs) x).
Proof.
  intros Hn. induction 1 as [|c cs Hc H IH]; intros [|y x]; cbn [combine map dot].
  1,2,3: rewrite <- Hn; clear; induction coeffs as [|u c' IHc]; cbn; [reflexivity|]; rewrite <- IHc; f_equal; ring.
  rewrite IH. destruct c as [|u c]; [discriminate|]. injection Hc as Hc. cbn [first nth tail]. rewrite axpy_R.
  assert (Hl : length (combine n (map tail cs) x) = n).
  { apply combine_length. apply Forall_map. eapply Forall_impl; [exact H|]. cbn. intros k. apply tail_length_1. }
  revert Hl Hc. rewrite <- Hn. generalize (combine (length coeffs) (map tail cs) x) (dot (map first cs) x). clear.
  revert c. induction coeffs as [|v co IH]; intros [|w c] [|z l] d E1 E2; cbn; try discriminate; [reflexivity|].
  rewrite IH by (cbn in *; lia). f_equal. ring.
Qed.

(** the pivot *)
Lemma icamax_from_spec l : forall i best (m : R) pre, length pre = i -> (forall x, x ∈ pre -> Rabs x <= m) -> (exists x, pre !! best = Some x /\ Rabs x = m) ->
  exists x, (pre ++ l) !! icamax_from i best m l = Some x /\ forall y, y ∈ pre ++ l -> Rabs y <= Rabs x.
Proof.
  induction l as [|x l IH]; intros i best m pre Hi Hm (z & Hz & Ez).
  - cbn. rewrite app_nil_r. exists z. split; [exact Hz|]. rewrite Ez. exact Hm.
  - cbn [icamax_from]. replace (pre ++ x :: l) with ((pre ++ [x]) ++ l) by (rewrite <- app_assoc; reflexivity).
    unfold sgt. cbn. unfold Rltb. destruct (Rlt_dec m (Rabs x)) as [Hlt|Hge].
    + apply IH; [rewrite app_length; cbn; lia| |].
      * intros y Hy. apply elem_of_app in Hy as [Hy|Hy]; [specialize (Hm y Hy); lra|]. apply elem_of_list_singleton in Hy as ->. lra.
      * exists x. split; [|reflexivity]. rewrite lookup_app_r by lia. rewrite Hi, Nat.sub_diag. reflexivity.
    + apply IH; [rewrite app_length; cbn; lia| |].
      * intros y Hy. apply elem_of_app in Hy as [Hy|Hy]; [apply Hm, Hy|]. apply elem_of_list_singleton in Hy as ->. lra.
      * exists z. split; [|exact Ez]. rewrite lookup_app_l by (eapply lookup_lt_Some; eauto). exact Hz.
Qed.
Lemma icamax_spec (l : list R) : l <> [] -> exists x, l !! icamax l = Some x /\ forall y, y ∈ l -> Rabs y <= Rabs x.
Proof.
  destruct l as [|x l]; [contradiction|]. intros _. cbn [icamax].
  apply (icamax_from_spec l 1 0 (Rabs x) [x]); [reflexivity| |exists x; auto].
  intros y Hy. apply elem_of_list_singleton in Hy as ->. lra.
Qed.
Lemma first_swap k (l : list R) x : l !! k = Some x -> first (swap_rows k l) = x.
Proof.
  destruct k as [|k], l as [|y l]; intros E; try discriminate; [cbn in *; congruence|].
  change (l !! k = Some x) in E. cbn [swap_rows]. rewrite E. reflexivity.
Qed.
Lemma nth_of_lookup (l : list R) k x : l !! k = Some x -> nth k l 0 = x.
Proof. revert k. induction l as [|y l IH]; intros [|k] E; cbn in *; try discriminate; [congruence|auto]. Qed.
Lemma back_sub (row xs : list R) b0 :
  foldr (fun p y => sadd (smul (smul (sneg (snd p)) (fst p)) sone) (smul sone y)) b0 (zip row xs) = b0 - dot row xs.
Proof. revert xs. induction row as [|r row IH]; intros [|x xs]; cbn; try lra. cbn in IH. rewrite IH. ring. Qed.

(** one step of the elimination *)
Lemma eliminate n c0 cs b x0 xs k d coeffs : length c0 = S n -> Forall (fun c => length c = S n) cs -> length b = S n ->
  first (swap_rows k c0) = d -> d <> 0 -> coeffs = map (fun x => x * / d) (tail (swap_rows k c0)) ->
  combine (S n) (c0 :: cs) (x0 :: xs) = b <->
  d * x0 = first (swap_rows k b) - dot (map first (map (swap_rows k) cs)) xs /\
  combine n (map (fun c => axpy (- first c) coeffs (tail c)) (map (swap_rows k) cs)) xs = axpy (- first (swap_rows k b)) coeffs (tail (swap_rows k b)).
Proof.
  intros H0 Hcs Hb Hd Hne Hco. pose proof (swap_cols _ k cs Hcs) as Hcs'.
  assert (Hsw : combine (S n) (c0 :: cs) (x0 :: xs) = b <-> combine (S n) (swap_rows k c0 :: map (swap_rows k) cs) (x0 :: xs) = swap_rows k b).
  { change (swap_rows k c0 :: map (swap_rows k) cs) with (map (swap_rows k) (c0 :: cs)). rewrite combine_swap by (apply Forall_cons; auto).
    split; [intros ->; reflexivity|]. intros E. apply (f_equal (swap_rows k)) in E. rewrite !swap_rows_twice in E. exact E. }
  rewrite Hsw. clear Hsw. pose proof (swap_rows_length k c0) as L0. pose proof (swap_rows_length k b) as Lb. rewrite H0 in L0. rewrite Hb in Lb. clear H0 Hb.
  revert L0 Lb Hd Hco Hcs'. generalize (swap_rows k c0) (swap_rows k b) (map (swap_rows k) cs). clear c0 b cs Hcs k. intros c0 b cs L0 Lb Hd Hco Hcs.
  destruct c0 as [|u c]; [discriminate|]. destruct b as [|b0 b]; [discriminate|]. injection L0 as L0. injection Lb as Lb. cbn [first nth tail] in *. subst u.
  assert (Hlc : length coeffs = n) by (rewrite Hco, map_length; exact L0).
  rewrite (combine_eliminated n coeffs cs Hlc Hcs). cbn [combine]. rewrite (combine_split n cs Hcs xs). cbn [zip_with].
  assert (Hlk : length (combine n (map tail cs) xs) = n).
  { apply combine_length. apply Forall_map. eapply Forall_impl; [exact Hcs|]. cbn. intros z. apply tail_length_1. }
  rewrite axpy_R. set (t := dot (map first cs) xs). set (l := combine n (map tail cs) xs) in *. clearbody t l.
  assert (Hrows : d * x0 = b0 - t ->
    zip_with (fun a s => a * x0 + s) c l = b <-> zip_with (fun l y => y + - t * l) coeffs l = zip_with (fun x y => y + - b0 * x) coeffs b).
  { intros Ex. assert (Ex0 : x0 = / d * (b0 - t)) by (rewrite <- Ex; field; exact Hne).
    revert l b Hlk Lb. rewrite Hco, <- L0. clear -Hne Ex0. induction c as [|u c IH]; intros [|v l] [|w b] E1 E2; try discriminate; [split; reflexivity|].
    cbn. specialize (IH l b ltac:(cbn in *; lia) ltac:(cbn in *; lia)). split; intros E; injection E as Ea Eb.
    - f_equal; [rewrite Ex0 in Ea; lra|]. apply IH, Eb.
    - f_equal; [rewrite Ex0; lra|]. apply IH, Eb. }
  split.
  - intros E. injection E as E1 E2. assert (Ex : d * x0 = b0 - t) by lra. split; [exact Ex|]. apply (Hrows Ex), E2.
  - intros [Ex E2]. f_equal; [lra|]. apply (Hrows Ex), E2.
Qed.

Definition kernel (n : nat) (cols : list (list R)) (x : list R) : Prop :=
  length x = n /\ (exists y, y ∈ x /\ y <> 0) /\ combine n cols x = repeat 0 n.
Lemma axpy_zero a (c : list R) n : length c = n -> axpy (- 0) c (repeat a n) = repeat a n.
Proof. intros <-. rewrite axpy_R. induction c as [|x c IH]; cbn; [reflexivity|]. rewrite IH. f_equal. ring. Qed.

Lemma gauss_spec n : forall cols b, square n cols -> length b = n ->
  match gauss n cols b with
  | Some x => length x = n /\ combine n cols x = b /\ forall x', length x' = n -> combine n cols x' = b -> x' = x
  | None => exists x, kernel n cols x
  end.
Proof.
  induction n as [|n IH]; intros cols b [Hl Hc] Hb.
  { destruct cols; [|discriminate]. destruct b; [|discriminate]. cbn. split; [reflexivity|]. split; [reflexivity|]. intros [|]; [reflexivity|discriminate]. }
  destruct cols as [|c0 cs]; [discriminate|]. injection Hl as Hl. apply Forall_cons in Hc as [Hc0 Hcs].
  destruct (icamax_spec c0) as (d & Hd & Hmax); [intros ->; discriminate|].
  cbn [gauss]. change (@szero R RScalar) with 0 in *. rewrite (nth_of_lookup _ _ _ Hd).
  change (seqb d 0) with (Reqb d 0). destruct (Req_EM_T d 0) as [->|Hne]; [rewrite (proj2 (Reqb_spec 0 0) eq_refl)|replace (Reqb d 0) with false by (symmetry; apply not_true_is_false; rewrite Reqb_spec; exact Hne)].
  - (* no entry in the column *)
    assert (H0 : c0 = repeat 0 (S n)).
    { rewrite <- Hc0. rewrite Rabs_R0 in Hmax. clear -Hmax. induction c0 as [|x c IH]; [reflexivity|]. cbn. f_equal.
      - specialize (Hmax x ltac:(set_solver)). destruct (Req_EM_T x 0); [assumption|]. apply Rabs_pos_lt in n. lra.
      - apply IH. intros y Hy. apply Hmax. set_solver. }
    assert (Hfirst : first (swap_rows 0 c0) = 0) by (rewrite H0; reflexivity). rewrite Hfirst.
    assert (Hk : kernel (S n) (c0 :: cs) (1 :: repeat 0 n)).
    { split; [cbn; rewrite repeat_length; reflexivity|]. split; [exists 1; split; [set_solver|lra]|].
      cbn [combine]. rewrite combine_zero; [|exact Hcs|].
      - rewrite H0. clear. generalize (S n). intros m. induction m as [|m IHm]; cbn; [reflexivity|]. f_equal; [ring|exact IHm].
      - intros i y Hy. apply elem_of_list_lookup_2, elem_of_list_In, repeat_spec in Hy. exact Hy. }
    destruct (gauss n _ _); [|exists (1 :: repeat 0 n); exact Hk].
    change (seqb (0:R) 0) with (Reqb 0 0). rewrite (proj2 (Reqb_spec 0 0) eq_refl). exists (1 :: repeat 0 n). exact Hk.
  - set (k := icamax c0) in *. rewrite (first_swap k c0 d Hd).
    set (coeffs := map _ (tail (swap_rows k c0))). set (sub := map _ (map (swap_rows k) cs)).
    assert (Hco : coeffs = map (fun x => x * / d) (tail (swap_rows k c0))).
    { unfold coeffs. apply List.map_ext. intros x. cbn. field. exact Hne. }
    assert (Hlc : length coeffs = n) by (rewrite Hco, map_length; apply tail_length_1; rewrite swap_rows_length; exact Hc0).
    assert (Hlb : length (tail (swap_rows k b)) = n) by (apply tail_length_1; rewrite swap_rows_length; exact Hb).
    assert (Hsub : square n sub).
    { split; [unfold sub; rewrite !map_length; exact Hl|]. unfold sub. apply Forall_map. eapply Forall_impl; [exact (swap_cols _ k cs Hcs)|].
      cbn. intros c E. rewrite axpy_length; [exact Hlc|]. rewrite (tail_length_1 c n E). exact Hlc. }
    assert (Eb : sneg (sdiv (first (swap_rows k b)) sone) = - first (swap_rows k b)) by (cbn; field). rewrite Eb.
    set (b' := axpy _ coeffs (tail (swap_rows k b))).
    assert (Hb' : length b' = n) by (unfold b'; rewrite axpy_length; congruence).
    specialize (IH sub b' Hsub Hb'). destruct (gauss n sub b') as [xs|].
    + destruct IH as (Hlx & Hxs & Huniq). rewrite back_sub. change (seqb d 0) with (Reqb d 0). unfold Reqb. destruct (Req_EM_T d 0); [contradiction|].
      set (x0 := sdiv _ d). split; [cbn; congruence|]. split.
      * apply (eliminate n c0 cs b x0 xs k d coeffs Hc0 Hcs Hb (first_swap k c0 d Hd) Hne Hco). split; [unfold x0; cbn; field; exact Hne|exact Hxs].
      * intros [|x0' xs'] Hl' E; [discriminate|]. injection Hl' as Hl'.
        apply (eliminate n c0 cs b x0' xs' k d coeffs Hc0 Hcs Hb (first_swap k c0 d Hd) Hne Hco) in E as [E1 E2].
        assert (xs' = xs) as -> by (apply Huniq; assumption). f_equal. unfold x0. cbn. rewrite <- E1. field. exact Hne.
    + destruct IH as (xs & Hlx & (y & Hy & Hy0) & Hz).
      set (x0 := (0 - dot (map first (map (swap_rows k) cs)) xs) / d).
      exists (x0 :: xs). split; [cbn; congruence|]. split; [exists y; split; [set_solver|exact Hy0]|].
      apply (eliminate n c0 cs (repeat 0 (S n)) x0 xs k d coeffs Hc0 Hcs (repeat_length _ _) (first_swap k c0 d Hd) Hne Hco).
      rewrite swap_rows_repeat. cbn [repeat first nth tail]. split; [unfold x0; field; exact Hne|]. refine (eq_trans Hz _).
      symmetry. exact (axpy_zero 0 coeffs n Hlc).
Qed.

Lemma combine_unique n cols b x : Forall (fun c => length c = n) cols -> length x = length cols -> combine n cols x = b ->
  (forall x', length x' = length cols -> combine n cols x' = b -> x' = x) ->
  forall z, length z = length cols -> combine n cols z = repeat 0 n -> z = repeat 0 (length z).
Proof.
  intros Hc Hx Hb Hu z Hz Hz0. assert (E : ladd x z = x).
  { apply Hu; [unfold ladd; rewrite zip_with_length; lia|]. rewrite combine_add by (auto; congruence). rewrite Hb, Hz0. subst b.
    pose proof (combine_length n cols x Hc) as Hl. revert Hl. generalize (combine n cols x). clear. revert n.
    intros n l <-. unfold ladd. induction l as [|y l IH]; cbn; [reflexivity|]. rewrite IH. f_equal. ring. }
  rewrite <- Hz in Hx. clear -E Hx. revert z Hx E. induction x as [|u x IH]; intros [|v z] Hx E; try discriminate; [reflexivity|].
  unfold ladd in *. cbn in *. injection E as E1 E2. f_equal; [lra|]. apply IH; [lia|exact E2].
Qed.
