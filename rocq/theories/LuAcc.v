(** * Rounding errors of the LU solve *)
From Coq Require Import String Reals ZArith Lra Lia Psatz Floats.SpecFloat.
From Flocq Require Import Core IEEE754.BinarySingleNaN.
From stdpp Require Import gmap.
From Verif Require Import Scalar ScalarR ScalarF Geometry Joint Link Prog NodeM ChainM FuncsM IkM SpecStep SvdM SpecLin SpecValues SpecFloatErr FloatErr FloatSub FloatBack
  SolvedProofs2 AccProofs LuM LuProofs SpecLuAcc.
Local Open Scope R_scope.

Definition swp (k i : nat) : nat := match i with O => k | _ => if decide (i = k) then 0%nat else i end.
Lemma swp_lt k i n : (k < n)%nat -> (i < n)%nat -> (swp k i < n)%nat.
Proof. intros Hk Hi. unfold swp. destruct i; [exact Hk|]. destruct (decide _); lia. Qed.
Lemma swp_twice k i : swp k (swp k i) = i.
Proof. unfold swp. destruct i as [|i]; [destruct k as [|k]; [reflexivity|]; rewrite decide_True by reflexivity; reflexivity|]. destruct (decide (S i = k)) as [E|E]; [congruence|]. rewrite decide_False by exact E. reflexivity. Qed.
Lemma nth_insert {A} (z x : A) k : forall l i, (k < length l)%nat -> nth i (<[k := x]> l) z = if decide (i = k) then x else nth i l z.
Proof.
  induction k as [|k IH]; intros [|y l] i H; cbn in H; try lia; destruct i as [|i]; cbn; try reflexivity.
  change (nth i (<[k := x]> l) z = if decide (S i = S k) then x else nth i l z). rewrite IH by lia. destruct (decide (i = k)), (decide (S i = S k)); try reflexivity; lia.
Qed.
Lemma nth_lookup {A} (z : A) l k : (k < length l)%nat -> l !! k = Some (nth k l z).
Proof. revert k. induction l as [|x l IH]; intros [|k] H; cbn in *; try lia; [reflexivity|]. apply IH. lia. Qed.
Lemma nth_swap {T} (z : T) k (l : list T) i : (k < length l)%nat -> nth i (swap_rows k l) z = nth (swp k i) l z.
Proof.
  intros Hk. destruct k as [|k]; [destruct l as [|x l]; [cbn in Hk; lia|]; destruct i; reflexivity|]. destruct l as [|x l]; cbn in Hk; [lia|].
  cbn [swap_rows]. rewrite (nth_lookup z) by lia. destruct i as [|i]; [reflexivity|]. cbn [nth]. rewrite nth_insert by lia. unfold swp.
  destruct (decide (i = k)), (decide (S i = S k)); try reflexivity; lia.
Qed.
Lemma nth_tail {T} (z : T) l i : nth i (tail l) z = nth (S i) l z.
Proof. destruct l; [destruct i; reflexivity|reflexivity]. Qed.
Lemma nth_zipw {A} (z : A) (f : A -> A -> A) : forall a b i, (i < length a)%nat -> (i < length b)%nat -> nth i (zip_with f a b) z = f (nth i a z) (nth i b z).
Proof. induction a as [|x a IH]; intros [|y b] [|i] H1 H2; cbn in *; try lia; [reflexivity|]. apply IH; lia. Qed.
Lemma nth_mapw {A} (z : A) (f : A -> A) : forall a i, (i < length a)%nat -> nth i (map f a) z = f (nth i a z).
Proof. induction a as [|x a IH]; intros [|i] H; cbn in *; try lia; [reflexivity|]. apply IH; lia. Qed.

Lemma norm1_pos x : 0 <= norm1 x.
Proof. induction x as [|y x IH]; cbn; [lra|]. pose proof (Rabs_pos y). lra. Qed.
Lemma dot_diff {A} (q p r : A -> R) l e cs : forall x, 0 <= e -> (forall c, c ∈ cs -> Rabs (q c - (p c - l * r c)) <= e) ->
  Rabs (dot (map q cs) x - (dot (map p cs) x - l * dot (map r cs) x)) <= e * norm1 x.
Proof.
  induction cs as [|c cs IH]; intros [|y x] He H; cbn [map dot norm1].
  1-3: replace (0 - (0 - l * 0)) with 0 by ring; rewrite Rabs_R0; try (pose proof (norm1_pos x); pose proof (Rabs_pos y); nra); lra.
  specialize (IH x He (fun c Hc => H c (elem_of_list_further _ _ _ Hc))). specialize (H c (elem_of_list_here _ _)).
  replace (_ - _) with ((q c - (p c - l * r c)) * y + (dot (map q cs) x - (dot (map p cs) x - l * dot (map r cs) x))) by ring.
  eapply Rle_trans; [apply Rabs_triang|]. rewrite Rabs_mult. pose proof (Rabs_pos y). nra.
Qed.
Lemma dot_le {A} (p : A -> R) m cs : forall x, 0 <= m -> (forall c, c ∈ cs -> Rabs (p c) <= m) -> Rabs (dot (map p cs) x) <= m * norm1 x.
Proof.
  induction cs as [|c cs IH]; intros [|y x] Hm H; cbn [map dot norm1]; try (rewrite Rabs_R0; try (pose proof (norm1_pos x); pose proof (Rabs_pos y); nra); lra).
  specialize (IH x Hm (fun c Hc => H c (elem_of_list_further _ _ _ Hc))). specialize (H c (elem_of_list_here _ _)).
  eapply Rle_trans; [apply Rabs_triang|]. rewrite Rabs_mult. pose proof (Rabs_pos y). nra.
Qed.

Section LuAcc.
  Context (prec emax : Z) (Hp : Prec_gt_0 prec) (Hm : Prec_lt_emax prec emax) (L : libm).
  Notation val := (val prec emax).
  Notation u := (unit_roundoff prec).
  Notation mu := (tiny emax).
  Notation fx := (SpecFloat.fexp prec emax).
  Notation rnd := (round radix2 fx ZnearestE).
  Notation BIG := (bpow radix2 (emax - 2)).
  Local Instance FSi : Scalar spec_float := FScalar prec emax L.
  Context (Hprec : (11 <= prec)%Z).

  Definition fin (x : spec_float) : Prop := exists r, val x r.
  Definition rv (x : spec_float) : R := match sf_value x with Some (Fin r) => r | _ => 0 end.
  Definition bad (x : spec_float) : Prop := match x with S754_infinity _ | S754_nan => True | _ => False end.
  Lemma val_rv x r : val x r -> rv x = r.
  Proof. intros [_ E]. unfold rv. rewrite E. reflexivity. Qed.
  Lemma fin_val x : fin x -> val x (rv x).
  Proof. intros [r H]. rewrite (val_rv _ _ H). exact H. Qed.
  Lemma classic_fin x : fin x \/ ~ fin x.
  Proof.
    unfold fin, SpecFloatErr.val. destruct (valid_binary prec emax x); [|right; intros [r [E _]]; discriminate].
    destruct (sf_value x) as [[]|]; try (left; eexists; split; reflexivity); right; intros [r [_ E]]; discriminate.
  Qed.
  Lemma bad_fin x : bad x -> fin x -> False.
  Proof. intros B [r [_ E]]. destruct x as [s|[]| |s m e]; try contradiction; discriminate. Qed.
  Lemma bad_add_l x y : bad x -> bad (SFadd prec emax x y).
  Proof. destruct x as [s|s| |s m e], y as [s'|s'| |s' m' e']; intros B; try contradiction; try exact I. cbn. destruct (Bool.eqb _ _); exact I. Qed.
  Lemma bad_mul_l x y : bad x -> bad (SFmul prec emax x y).
  Proof. destruct x as [s|s| |s m e], y as [s'|s'| |s' m' e']; intros B; try contradiction; exact I. Qed.
  Lemma bad_mul_r x y : bad y -> bad (SFmul prec emax x y).
  Proof. destruct x as [s|s| |s m e], y as [s'|s'| |s' m' e']; intros B; try contradiction; exact I. Qed.
  Lemma bad_div x y : bad x -> bad (SFdiv prec emax x y).
  Proof. destruct x as [s|s| |s m e], y as [s'|s'| |s' m' e']; intros B; try contradiction; exact I. Qed.
  Lemma bad_opp x : bad x -> bad (SFopp x).
  Proof. destruct x; intros B; try contradiction; exact I. Qed.
  Lemma bad_eqb x : bad x -> SFeqb x (S754_zero false) = false.
  Proof. destruct x as [s|[]| |s m e]; intros B; try contradiction; reflexivity. Qed.

  (** an all-bad system has a bad answer *)
  Definition bads (l : list spec_float) : Prop := Forall bad l.
  Lemma nth_bad l i : bads l -> (i < length l)%nat -> bad (nth i l szero).
  Proof. intros H Hi. apply (proj1 (Forall_lookup _ _) H i). apply nth_lookup. exact Hi. Qed.
  Lemma bads_nth l : (forall i, (i < length l)%nat -> bad (nth i l szero)) -> bads l.
  Proof. intros H. apply Forall_lookup. intros i x E. pose proof (lookup_lt_Some _ _ _ E) as Hi. rewrite (nth_lookup szero) in E by exact Hi. injection E as <-. apply H, Hi. Qed.
  Lemma bads_swap k l : (k < length l)%nat -> bads l -> bads (swap_rows k l).
  Proof.
    intros Hk H. apply bads_nth. rewrite swap_rows_length. intros i Hi. rewrite nth_swap by exact Hk. apply nth_bad; [exact H|]. apply swp_lt; assumption.
  Qed.
  Lemma bads_axpy a x y : bads x -> bads (axpy a x y).
  Proof.
    intros H. revert y. induction H as [|z x Hz H IH]; intros [|w y]; try constructor; [|apply IH].
    cbn. apply bad_add_l, bad_mul_l, bad_mul_r, Hz.
  Qed.
  Lemma icamax_lt (l : list spec_float) : l <> [] -> (icamax l < length l)%nat.
  Proof.
    assert (G : forall l i best m, (best < i)%nat -> (icamax_from i best m l < i + length l)%nat).
    { clear l. induction l as [|x l IH]; intros i best m Hb; cbn [icamax_from length]; [lia|]. destruct (sgt (sabs x) m).
      - specialize (IH (S i) i (sabs x) ltac:(lia)). lia.
      - specialize (IH (S i) best m ltac:(lia)). lia. }
    destruct l as [|x l]; [contradiction|]. intros _. cbn [icamax length]. apply G. lia.
  Qed.
  Lemma gauss_bad n : forall cols b, square n cols -> length b = n -> Forall bads cols -> bads b ->
    exists x, gauss n cols b = Some x /\ (n <> 0%nat -> Exists bad x).
  Proof.
    induction n as [|n IH]; intros cols b [Hl Hc] Hb Bc Bb; [destruct cols; eexists; (split; [reflexivity|]); intros []; reflexivity|].
    destruct cols as [|c0 cs]; [discriminate|]. injection Hl as Hl. apply Forall_cons in Hc as [Hc0 Hcs]. apply Forall_cons in Bc as [B0 Bs].
    cbn [gauss]. set (k := icamax c0).
    assert (Hk : (k < S n)%nat) by (rewrite <- Hc0; apply icamax_lt; intros ->; discriminate).
    assert (Ez : seqb (nth k c0 szero) szero = false) by (apply bad_eqb, nth_bad; [exact B0|lia]). rewrite Ez. cbv iota zeta.
    set (coeffs := map _ (tail (swap_rows k c0))). set (sub := map _ (map (swap_rows k) cs)).
    assert (Lc : length coeffs = n) by (unfold coeffs; rewrite map_length; apply tail_length_1; rewrite swap_rows_length; exact Hc0).
    assert (Lb : length (tail (swap_rows k b)) = n) by (apply tail_length_1; rewrite swap_rows_length; exact Hb).
    assert (B0' : bads (swap_rows k c0)) by (apply bads_swap; [lia|exact B0]).
    assert (Bco : bads coeffs).
    { unfold coeffs. apply Forall_map. destruct (swap_rows k c0) as [|y c]; [constructor|]. apply Forall_cons in B0' as [_ B0']. eapply Forall_impl; [exact B0'|].
      cbn. intros x Hx. apply bad_mul_l, Hx. }
    destruct (IH sub (axpy (sneg (sdiv (first (swap_rows k b)) sone)) coeffs (tail (swap_rows k b)))) as (xs & E & Bx).
    - split; [unfold sub; rewrite !map_length; exact Hl|]. unfold sub. apply Forall_map. eapply Forall_impl; [apply swap_cols, Hcs|].
      cbn. intros c Ec. rewrite axpy_length; [exact Lc|]. rewrite (tail_length_1 c n Ec). exact Lc.
    - rewrite axpy_length; congruence.
    - unfold sub. apply Forall_map, Forall_forall. intros c _. apply bads_axpy, Bco.
    - apply bads_axpy, Bco.
    - rewrite E. assert (Bf : bad (first (swap_rows k c0))) by (apply nth_bad; [exact B0'|rewrite swap_rows_length; lia]).
      assert (Ef : seqb (first (swap_rows k c0)) szero = false) by (apply bad_eqb, Bf). rewrite Ef. eexists. split; [reflexivity|]. intros _.
      destruct (decide (n = 0%nat)) as [->|Hn]; [|apply Exists_cons_tl, Bx, Hn].
      destruct cs; [|discriminate]. cbn [map zip foldr]. apply Exists_cons_hd, bad_div, nth_bad; [apply bads_swap; [lia|exact Bb]|rewrite swap_rows_length; lia].
  Qed.

  (** ** single operations *)
  Lemma mul_val x y a b : val x a -> val y b -> Rabs (rnd (a * b)) < bpow radix2 emax -> val (SFmul prec emax x y) (rnd (a * b)).
  Proof.
    intros Hx Hy H. apply val_B in Hx as (x' & -> & Fx & <-). apply val_B in Hy as (y' & -> & Fy & <-).
    pose proof (Bmult_correct prec emax Hp Hm mode_NE x' y') as HC. change (round_mode mode_NE) with ZnearestE in HC. rewrite Rlt_bool_true in HC by exact H.
    destruct HC as (H1 & H2 & _). rewrite Fx, Fy in H2. rewrite (mul_equiv prec emax Hp Hm), <- H1. apply B_val. exact H2.
  Qed.
  Lemma div_val x y a b : val x a -> val y b -> b <> 0 -> Rabs (rnd (a / b)) < bpow radix2 emax -> val (SFdiv prec emax x y) (rnd (a / b)).
  Proof.
    intros Hx Hy Hb H. apply val_B in Hx as (x' & -> & Fx & <-). apply val_B in Hy as (y' & -> & Fy & <-).
    pose proof (Bdiv_correct prec emax Hp Hm mode_NE x' y' Hb) as HC. change (round_mode mode_NE) with ZnearestE in HC. rewrite Rlt_bool_true in HC by exact H.
    destruct HC as (H1 & H2 & _). rewrite Fx in H2. rewrite (div_equiv prec emax Hp Hm), <- H1. apply B_val. exact H2.
  Qed.
  Lemma div_bad x y a b : val x a -> val y b -> b <> 0 -> ~ fin (SFdiv prec emax x y) -> bad (SFdiv prec emax x y).
  Proof.
    intros Hx Hy Hb H. apply val_B in Hx as (x' & -> & Fx & <-). apply val_B in Hy as (y' & -> & Fy & <-). rewrite (div_equiv prec emax Hp Hm) in *.
    destruct (is_finite (Bdiv mode_NE x' y')) eqn:E; [exfalso; apply H; eexists; apply B_val, E|]. destruct (Bdiv mode_NE x' y'); try discriminate E; exact I.
  Qed.
  Lemma rnd_self x a : val x a -> rnd a = a.
  Proof. intros H. apply round_generic; [apply valid_rnd_N|]. exact (val_format _ _ _ _ H). Qed.
  Lemma one_val : val sone 1.
  Proof. exact (val_one prec emax Hp Hm L Hprec). Qed.
  Lemma mul_one x a : val x a -> val (SFmul prec emax x sone) a.
  Proof.
    intros H. pose proof (mul_val x sone a 1 H one_val) as G. rewrite Rmult_1_r, (rnd_self x a H) in G. apply G. exact (val_lt _ _ _ _ H).
  Qed.
  Lemma one_mul x a : val x a -> val (SFmul prec emax sone x) a.
  Proof.
    intros H. pose proof (mul_val sone x 1 a one_val H) as G. rewrite Rmult_1_l, (rnd_self x a H) in G. apply G. exact (val_lt _ _ _ _ H).
  Qed.
  Lemma div_one x a : val x a -> val (SFdiv prec emax x sone) a.
  Proof.
    intros H. pose proof (div_val x sone a 1 H one_val ltac:(lra)) as G. replace (a / 1) with a in G by field. rewrite (rnd_self x a H) in G. apply G. exact (val_lt _ _ _ _ H).
  Qed.
  Lemma big_mu : BIG * mu = 1.
  Proof. unfold tiny. rewrite <- bpow_plus. replace (emax - 2 + (2 - emax))%Z with 0%Z by lia. reflexivity. Qed.
  Lemma u_le : 0 < u <= / 2048.
  Proof. exact (u_small prec Hprec). Qed.
  Lemma mu_le : 0 < mu <= / 1024.
  Proof. exact (mu_small prec emax Hm Hprec). Qed.

  (** one entry of [axpy] *)
  Lemma ax_ok r0 l0 y0 r l y M : val r0 r -> val l0 l -> val y0 y -> Rabs r <= M -> Rabs l <= 1 + 5 * u -> Rabs y <= M -> mu <= M -> 3 * M <= BIG ->
    exists c, val (SFadd prec emax (SFmul prec emax (SFmul prec emax (SFopp r0) l0) sone) (SFmul prec emax sone y0)) c /\
      Rabs c <= 3 * M /\ Rabs (c - (y - l * r)) <= 6 * u * M.
  Proof.
    intros Hr Hl Hy Ar Al Ay HM HB. pose proof u_le as U. pose proof mu_le as MU. pose proof (Rabs_pos r). pose proof (Rabs_pos l).
    assert (Arl : Rabs (- r * l) <= (1 + 5 * u) * M).
    { rewrite Rabs_mult, Rabs_Ropp. replace ((1 + 5 * u) * M) with (M * (1 + 5 * u)) by ring. apply Rmult_le_compat; assumption. }
    assert (UM : 0 <= u * M) by nra. assert (UUM : u * (u * M) <= / 2048 * (u * M)) by (apply Rmult_le_compat_r; lra). assert (UM' : u * M <= / 2048 * M) by (apply Rmult_le_compat_r; lra).
    destruct (mul_ok prec emax Hp Hm _ _ _ _ (val_opp prec emax _ _ Hr) Hl) as (p & Vp & Ep); [rewrite (big_double emax); nra|].
    assert (Ep' : Rabs (p - - r * l) <= 3 * u * M).
    { eapply Rle_trans; [exact Ep|]. assert (u * Rabs (- r * l) <= u * ((1 + 5 * u) * M)) by (apply Rmult_le_compat_l; lra). assert (u * mu <= u * M) by (apply Rmult_le_compat_l; lra). nra. }
    assert (Aps : Rabs (p + y) <= (2 + 8 * u) * M).
    { replace (p + y) with ((p - - r * l) + (- r * l + y)) by ring. eapply Rle_trans; [apply Rabs_triang|]. pose proof (Rabs_triang (- r * l) y). lra. }
    destruct (add_ok prec emax Hp Hm _ _ _ _ (mul_one _ _ Vp) (one_mul _ _ Hy)) as (c & Vc & Ec); [rewrite (big_double emax); nra|].
    assert (Ec' : Rabs (c - (p + y)) <= 3 * u * M).
    { eapply Rle_trans; [exact Ec|]. assert (u * Rabs (p + y) <= u * ((2 + 8 * u) * M)) by (apply Rmult_le_compat_l; lra). nra. }
    exists c. split; [exact Vc|]. split.
    - replace c with ((c - (p + y)) + (p + y)) by ring. eapply Rle_trans; [apply Rabs_triang|]. nra.
    - replace (c - (y - l * r)) with ((c - (p + y)) + (p - - r * l)) by ring. eapply Rle_trans; [apply Rabs_triang|]. lra.
  Qed.
  (** one coefficient *)
  Lemma co_ok x0 d0 x d i M : val x0 x -> val d0 d -> d <> 0 -> Rabs x <= Rabs d -> Rabs d <= M -> M <= BIG -> val (SFdiv prec emax sone d0) i ->
    exists l, val (SFmul prec emax x0 (SFdiv prec emax sone d0)) l /\ Rabs l <= 1 + 5 * u /\ Rabs (l * d - x) <= 5 * u * M.
  Proof.
    intros Hx Hd Hd0 Ax Ad HM Hi. pose proof u_le as U. pose proof mu_le as MU. pose proof big_mu as BM. assert (AD : 0 < Rabs d) by (apply Rabs_pos_lt, Hd0). pose proof (Rabs_pos x).
    destruct (div_back prec emax Hp Hm _ _ _ _ (proj1 one_val) Hd Hd0 Hi) as (one & H1 & Ei). rewrite (val_fun _ _ _ _ _ H1 one_val) in Ei.
    pose proof (rnd_err prec emax Hp (1 / d)) as Er. rewrite <- Ei in Er.
    assert (Edi : Rabs (i * d - 1) <= 2 * u).
    { replace (i * d - 1) with ((i - 1 / d) * d) by (field; exact Hd0). rewrite Rabs_mult. unfold Rdiv in Er. rewrite Rabs_mult, Rabs_R1, Rabs_inv in Er.
      apply Rle_trans with ((u * (1 * / Rabs d) + u * mu) * Rabs d); [apply Rmult_le_compat_r; [lra|exact Er]|].
      replace ((u * (1 * / Rabs d) + u * mu) * Rabs d) with (u + u * (Rabs d * mu)) by (field; lra).
      assert (Rabs d * mu <= BIG * mu) by (apply Rmult_le_compat_r; lra). assert (u * (Rabs d * mu) <= u * 1) by (apply Rmult_le_compat_l; lra). lra. }
    assert (Axi : Rabs (x * i) <= 1 + 2 * u).
    { rewrite Rabs_mult. apply Rle_trans with (Rabs (i * d)); [rewrite Rabs_mult, Rmult_comm; apply Rmult_le_compat_l; [apply Rabs_pos|exact Ax]|].
      replace (i * d) with ((i * d - 1) + 1) by ring. eapply Rle_trans; [apply Rabs_triang|]. rewrite Rabs_R1. lra. }
    pose proof (big prec emax Hm Hprec) as HBIG.
    destruct (mul_ok prec emax Hp Hm _ _ _ _ Hx Hi) as (l & Vl & El); [rewrite (big_double emax); lra|].
    assert (El' : Rabs (l - x * i) <= 3 * u).
    { eapply Rle_trans; [exact El|]. assert (u * Rabs (x * i) <= u * (1 + 2 * u)) by (apply Rmult_le_compat_l; lra). nra. }
    exists l. split; [exact Vl|]. split.
    - replace l with ((l - x * i) + x * i) by ring. eapply Rle_trans; [apply Rabs_triang|]. lra.
    - replace (l * d - x) with ((l - x * i) * d + x * (i * d - 1)) by ring. eapply Rle_trans; [apply Rabs_triang|]. rewrite !Rabs_mult.
      assert (Rabs (l - x * i) * Rabs d <= 3 * u * M) by (apply Rmult_le_compat; try apply Rabs_pos; assumption).
      assert (Rabs x * Rabs (i * d - 1) <= M * (2 * u)) by (apply Rmult_le_compat; try apply Rabs_pos; lra). lra.
  Qed.

  (** ** bounded lists *)
  Definition bounded (M : R) (l : list spec_float) : Prop := Forall (fun x => fin x /\ Rabs (rv x) <= M) l.
  Definition cell (i : nat) (c : list spec_float) : R := rv (nth i c szero).
  Lemma cell_ok M l i : bounded M l -> (i < length l)%nat -> val (nth i l szero) (cell i l) /\ Rabs (cell i l) <= M.
  Proof.
    intros H Hi. destruct (proj1 (Forall_lookup _ _) H i _ (nth_lookup szero l i Hi)) as [Hf Hb]. split; [apply fin_val, Hf|exact Hb].
  Qed.
  Lemma bounded_nth M l : (forall i, (i < length l)%nat -> fin (nth i l szero) /\ Rabs (cell i l) <= M) -> bounded M l.
  Proof. intros H. apply Forall_lookup. intros i x E. pose proof (lookup_lt_Some _ _ _ E) as Hi. rewrite (nth_lookup szero) in E by exact Hi. injection E as <-. apply H, Hi. Qed.
  Lemma icamax_from_max M l : forall i best m mv pre, length pre = i -> (best < i)%nat -> bounded M (pre ++ l) -> val m mv ->
    (forall j, (j < i)%nat -> Rabs (cell j (pre ++ l)) <= mv) -> Rabs (cell best (pre ++ l)) = mv ->
    forall j, (j < length (pre ++ l))%nat -> Rabs (cell j (pre ++ l)) <= Rabs (cell (icamax_from i best m l) (pre ++ l)).
  Proof.
    induction l as [|x l IH]; intros i best m mv pre Hi Hbest HB Hmv Hle Heq j Hj.
    - cbn [icamax_from]. rewrite Heq. apply Hle. rewrite app_length in Hj. cbn in Hj. lia.
    - cbn [icamax_from].
      assert (Ex : nth i (pre ++ x :: l) szero = x) by (rewrite app_nth2 by lia; rewrite Hi, Nat.sub_diag; reflexivity).
      destruct (cell_ok M (pre ++ x :: l) i HB) as [Vx _]; [rewrite app_length; cbn; lia|]. unfold cell in Vx at 1. rewrite Ex in Vx.
      pose proof (val_abs prec emax _ _ Vx) as Va.
      pose proof (gt_fwd prec emax _ _ _ _ Hmv Va) as Hlt.
      assert (Ec : cell i (pre ++ x :: l) = rv x) by (unfold cell; rewrite Ex; reflexivity).
      change (sgt (sabs x) m) with (SFltb m (SFabs x)). destruct (SFltb m (SFabs x)) eqn:Eb.
      + assert (mv < Rabs (rv x)) by (apply Hlt; reflexivity).
        specialize (IH (S i) i (sabs x) (Rabs (rv x)) (pre ++ [x])). rewrite <- app_assoc in IH. cbn [app] in IH. apply IH; try assumption; try (rewrite ?app_length; cbn; lia).
        * intros j' Hj'. destruct (decide (j' = i)) as [->|]; [rewrite Ec; lra|]. specialize (Hle j' ltac:(lia)). lra.
        * rewrite Ec. reflexivity.
      + assert (Hge : Rabs (rv x) <= mv) by (destruct (Rle_or_lt (Rabs (rv x)) mv) as [|Hc]; [assumption|]; apply Hlt in Hc; congruence).
        specialize (IH (S i) best m mv (pre ++ [x])). rewrite <- app_assoc in IH. cbn [app] in IH. apply IH; try assumption; try (rewrite ?app_length; cbn; lia).
        intros j' Hj'. destruct (decide (j' = i)) as [->|]; [rewrite Ec; lra|]. apply Hle. lia.
  Qed.
  Lemma icamax_max M l : bounded M l -> forall j, (j < length l)%nat -> Rabs (cell j l) <= Rabs (cell (icamax l) l).
  Proof.
    destruct l as [|x l]; [cbn; intros; lia|]. intros HB. cbn [icamax]. destruct (cell_ok M (x :: l) 0 HB) as [Vx _]; [cbn; lia|].
    apply (icamax_from_max M l 1 0 (sabs x) (Rabs (rv x)) [x]); [reflexivity|lia|exact HB|exact (val_abs prec emax _ _ Vx)| |reflexivity].
    intros [|j] Hj; [|lia]. right. reflexivity.
  Qed.
  Lemma seqb_zero x : fin x -> seqb x szero = true <-> rv x = 0.
  Proof.
    intros [r [Hv E]]. unfold rv. rewrite E. change (seqb x szero) with (SFeqb x (S754_zero false)). rewrite eqb_zero.
    destruct x as [s|[]| |s m e]; cbn in E; try discriminate; injection E as <-.
    - split; [reflexivity|eauto].
    - split; [intros [? F]; discriminate|]. intros F. exfalso. apply Rmult_integral in F as [F|F].
      + apply eq_IZR in F. destruct s; discriminate.
      + pose proof (bpow_gt_0 radix2 e). lra.
  Qed.

  (** ** one stage of the elimination *)
  Definition coefs (k : nat) (c0 : list spec_float) : list spec_float := map (fun x => smul x (sdiv sone (nth k c0 szero))) (tail (swap_rows k c0)).
  Definition reduct (k : nat) (co c : list spec_float) : list spec_float := axpy (sneg (first (swap_rows k c))) co (tail (swap_rows k c)).
  Definition rhs (k : nat) (co b : list spec_float) : list spec_float := axpy (sneg (sdiv (first (swap_rows k b)) sone)) co (tail (swap_rows k b)).
  Lemma cell_swap k c i : (k < length c)%nat -> cell i (swap_rows k c) = cell (swp k i) c.
  Proof. intros H. unfold cell. rewrite nth_swap by exact H. reflexivity. Qed.
  Lemma swap_nil : forall c : list spec_float, swap_rows 0 c = c.
  Proof. intros []; reflexivity. Qed.
  Lemma tail_swap_length n k (c : list spec_float) : length c = S n -> length (tail (swap_rows k c)) = n.
  Proof. intros H. apply tail_length_1. rewrite swap_rows_length. exact H. Qed.
  Lemma coefs_length n k c : length c = S n -> length (coefs k c) = n.
  Proof. intros H. unfold coefs. rewrite map_length. apply tail_swap_length, H. Qed.
  Lemma reduct_length n k co c : length co = n -> length c = S n -> length (reduct k co c) = n.
  Proof. intros H1 H2. unfold reduct. rewrite axpy_length; [exact H1|]. rewrite (tail_swap_length n); assumption. Qed.
  Lemma rhs_length n k co c : length co = n -> length c = S n -> length (rhs k co c) = n.
  Proof. intros H1 H2. unfold rhs. rewrite axpy_length; [exact H1|]. rewrite (tail_swap_length n); assumption. Qed.

  Lemma stage n c0 cs b M be : length c0 = S n -> Forall (fun c => length c = S n) cs -> length b = S n ->
    Forall (bounded M) (c0 :: cs) -> bounded be b -> mu <= M -> mu <= be -> 3 * M <= BIG -> 3 * be <= BIG ->
    let k := icamax c0 in let co := coefs k c0 in
    cell k c0 <> 0 -> fin (sdiv sone (nth k c0 szero)) ->
    Forall (bounded (3 * M)) (map (reduct k co) cs) /\ bounded (3 * be) (rhs k co b) /\
    forall i, (i < n)%nat -> let l := cell i co in
      Rabs l <= 1 + 5 * u /\ Rabs (l * cell k c0 - cell (swp k (S i)) c0) <= 5 * u * M /\
      (forall x, Rabs (dot (map (cell i) (map (reduct k co) cs)) x - (dot (map (cell (swp k (S i))) cs) x - l * dot (map (cell k) cs) x)) <= 6 * u * M * norm1 x) /\
      Rabs (cell i (rhs k co b) - (cell (swp k (S i)) b - l * cell k b)) <= 6 * u * be.
  Proof.
    intros H0 Hcs Hb BM Bb HM Hbe HMB HbB k co Hd Hinv. apply Forall_cons in BM as [BM0 BMs].
    assert (Hk : (k < S n)%nat) by (rewrite <- H0; apply icamax_lt; intros ->; discriminate).
    pose proof u_le as U. pose proof mu_le as MU.
    destruct (cell_ok M c0 k BM0 ltac:(lia)) as [Vd Ad].
    assert (Hco : forall i, (i < n)%nat -> val (nth i co szero) (cell i co) /\ Rabs (cell i co) <= 1 + 5 * u /\ Rabs (cell i co * cell k c0 - cell (swp k (S i)) c0) <= 5 * u * M).
    { intros i Hi. pose proof (swp_lt k (S i) (S n) Hk ltac:(lia)) as Hs. destruct (cell_ok M c0 (swp k (S i)) BM0 ltac:(lia)) as [Vx _].
      destruct (co_ok _ _ _ _ _ M Vx Vd Hd (icamax_max M c0 BM0 (swp k (S i)) ltac:(lia)) Ad ltac:(lra) (fin_val _ Hinv)) as (l & Vl & Al & El).
      assert (En : nth i co szero = SFmul prec emax (nth (swp k (S i)) c0 szero) (SFdiv prec emax sone (nth k c0 szero))).
      { unfold co, coefs. rewrite nth_mapw by (rewrite (tail_swap_length n); lia). rewrite nth_tail, nth_swap by lia. reflexivity. }
      assert (Ec : cell i co = l) by (unfold cell; rewrite En; apply val_rv, Vl). rewrite Ec, En. auto. }
    assert (Lco : length co = n) by (apply coefs_length, H0).
    assert (Hax : forall m c r, length c = S n -> bounded m c -> mu <= m -> 3 * m <= BIG -> val r (cell k c) -> forall i, (i < n)%nat ->
      let a := axpy (sneg r) co (tail (swap_rows k c)) in fin (nth i a szero) /\ Rabs (cell i a) <= 3 * m /\ Rabs (cell i a - (cell (swp k (S i)) c - cell i co * cell k c)) <= 6 * u * m).
    { intros m c r Hc Bc Hmm HmB Vr i Hi a. pose proof (swp_lt k (S i) (S n) Hk ltac:(lia)) as Hs.
      destruct (cell_ok m c k Bc ltac:(lia)) as [_ Ar]. destruct (cell_ok m c (swp k (S i)) Bc ltac:(lia)) as [Vy Ay]. destruct (Hco i Hi) as (Vl & Al & _).
      destruct (ax_ok _ _ _ _ _ _ m Vr Vl Vy Ar Al Ay Hmm HmB) as (v & Vv & Av & Ev).
      assert (En : nth i a szero = SFadd prec emax (SFmul prec emax (SFmul prec emax (SFopp r) (nth i co szero)) sone) (SFmul prec emax sone (nth (swp k (S i)) c szero))).
      { unfold a, axpy. rewrite nth_zipw by (rewrite ?(tail_swap_length n) by exact Hc; lia). rewrite nth_tail, nth_swap by lia. reflexivity. }
      assert (Ec : cell i a = v) by (unfold cell; rewrite En; apply val_rv, Vv). rewrite Ec, En. split; [exists v; exact Vv|]. auto. }
    assert (Hred : forall c, c ∈ cs -> forall i, (i < n)%nat -> fin (nth i (reduct k co c) szero) /\ Rabs (cell i (reduct k co c)) <= 3 * M /\
      Rabs (cell i (reduct k co c) - (cell (swp k (S i)) c - cell i co * cell k c)) <= 6 * u * M).
    { intros c Hc i Hi. pose proof (proj1 (Forall_forall _ _) Hcs c Hc) as Lc. cbn in Lc. pose proof (proj1 (Forall_forall _ _) BMs c Hc) as Bc.
      apply (Hax M c _ Lc Bc HM HMB); [|exact Hi]. unfold first. rewrite (nth_swap szero k c 0) by lia. apply (cell_ok M c k Bc). lia. }
    split; [|split].
    - apply Forall_map, Forall_forall. intros c Hc. apply bounded_nth. rewrite (reduct_length n k co c Lco (proj1 (Forall_forall _ _) Hcs c Hc)).
      intros i Hi. destruct (Hred c Hc i Hi) as (? & ? & _). auto.
    - apply bounded_nth. rewrite (rhs_length n k co b Lco Hb). intros i Hi. destruct (Hax be b (sdiv (first (swap_rows k b)) sone) Hb Bb Hbe HbB) with (i := i) as (? & ? & _); [|exact Hi|auto].
      unfold first. rewrite (nth_swap szero k b 0) by lia. apply div_one, (cell_ok be b k Bb). lia.
    - intros i Hi l. destruct (Hco i Hi) as (_ & Al & El). split; [exact Al|]. split; [exact El|]. split.
      + intros x. rewrite List.map_map. apply (dot_diff (fun c => cell i (reduct k co c)) (cell (swp k (S i))) (cell k)); [nra|].
        intros c Hc. apply (Hred c Hc i Hi).
      + apply (Hax be b (sdiv (first (swap_rows k b)) sone) Hb Bb Hbe HbB); [|exact Hi].
        unfold first. rewrite (nth_swap szero k b 0) by lia. apply div_one, (cell_ok be b k Bb). lia.
  Qed.

  (** ** back substitution *)
  Definition backsub (b0 : spec_float) (l : list (spec_float * spec_float)) : spec_float :=
    foldr (fun p y => sadd (smul (smul (sneg (snd p)) (fst p)) sone) (smul sone y)) b0 l.
  Lemma backsub_ok M be b0 : fin b0 -> Rabs (rv b0) <= be -> mu <= be -> 0 <= M -> forall row xs S, bounded M row -> Forall fin xs -> length row = length xs ->
    be + M * norm1 (map rv xs) <= S -> 8 * INR (length xs) * u <= 1 -> fin (backsub b0 (zip row xs)) ->
    Rabs (rv (backsub b0 (zip row xs)) - (rv b0 - dot (map rv row) (map rv xs))) <= 4 * INR (length xs) * u * S.
  Proof.
    intros F0 A0 Hbe HM. pose proof u_le as U. pose proof mu_le as MU.
    induction row as [|r row IH]; intros [|x xs] S HB HF Hl HS Hn Hfin; try discriminate Hl.
    - cbn. replace (rv b0 - (rv b0 - 0)) with 0 by ring. rewrite Rabs_R0. lra.
    - injection Hl as Hl. apply Forall_cons in HB as [[Fr Ar] HB]. apply Forall_cons in HF as [Fx HF].
      cbn [zip zip_with backsub foldr fst snd] in Hfin |- *. fold (backsub b0 (zip row xs)) in *. set (y := backsub b0 (zip row xs)) in *.
      destruct Hfin as [c Vc]. cbn [map norm1 dot] in *. rewrite (val_rv _ _ Vc). pose proof (norm1_pos (map rv xs)) as N1. pose proof (Rabs_pos (rv x)) as Ax.
      pose proof (Rabs_pos (rv b0)) as Ab0. pose proof (pos_INR (length xs)) as Pn. cbn [length] in *. rewrite S_INR in *.
      assert (Vy : valid_binary prec emax y = true).
      { unfold y. clear -Hp Hm Hprec F0 HB HF. revert xs HF. induction HB as [|r row [[a Vr] _] HB IH]; intros xs HF; cbn [zip zip_with backsub foldr fst snd]; [destruct F0 as [a V]; apply V|].
        destruct HF as [|x xs [v Vx] HF]; [destruct F0 as [a' V]; apply V|]. cbn [zip zip_with foldr fst snd].
        apply add_valid; try assumption; apply mul_valid; try assumption; try apply one_val; [|apply IH, HF].
        apply mul_valid; try assumption; [apply (val_opp prec emax _ _ Vx)|apply Vr]. }
      pose proof (fin_val _ Fx) as Vx. pose proof (fin_val _ Fr) as Vr. pose proof (val_opp prec emax _ _ Vx) as Vox.
      destruct (add_back prec emax Hp Hm _ _ _ (mul_valid prec emax Hp Hm _ _ (mul_valid prec emax Hp Hm _ _ (proj1 Vox) (proj1 Vr)) (proj1 one_val)) (mul_valid prec emax Hp Hm _ _ (proj1 one_val) Vy) Vc)
        as (p & w & Vp & Vw & Ec).
      destruct (mul_back prec emax Hp Hm _ _ _ (mul_valid prec emax Hp Hm _ _ (proj1 Vox) (proj1 Vr)) (proj1 one_val) Vp) as (p' & one & Vp' & V1 & Ep).
      rewrite (val_fun _ _ _ _ _ V1 one_val), Rmult_1_r, (rnd_self _ _ Vp') in Ep. subst p.
      destruct (mul_back prec emax Hp Hm _ _ _ (proj1 Vox) (proj1 Vr) Vp') as (x' & r' & Vx' & Vr' & Ep).
      rewrite (val_fun _ _ _ _ _ Vx' Vox), (val_fun _ _ _ _ _ Vr' Vr) in Ep. clear V1 one Vx' Vr' x' r'.
      destruct (mul_back prec emax Hp Hm _ _ _ (proj1 one_val) Vy Vw) as (one & w' & V1 & Vw' & Ew).
      rewrite (val_fun _ _ _ _ _ V1 one_val), Rmult_1_l, (rnd_self _ _ Vw') in Ew. subst w. clear V1 one.
      specialize (IH xs S HB HF Hl ltac:(nra) ltac:(nra) (ex_intro _ _ Vw')). fold y in IH. rewrite (val_rv _ _ Vw') in IH.
      set (D := dot (map rv row) (map rv xs)) in *. set (nn := INR (length xs)) in *.
      assert (AD : Rabs D <= M * norm1 (map rv xs)) by (apply (dot_le rv); [exact HM|]; intros c' Hc'; apply (proj1 (Forall_forall _ _) HB c' Hc')).
      assert (Arx : Rabs (- rv x * rv r) <= M * Rabs (rv x)) by (rewrite Rabs_mult, Rabs_Ropp, Rmult_comm; apply Rmult_le_compat_r; assumption).
      assert (SP : 0 < S) by nra.
      assert (Ep' : Rabs (p' - - rv x * rv r) <= u * S).
      { rewrite Ep. eapply Rle_trans; [apply (rnd_err prec emax Hp)|]. rewrite <- Rmult_plus_distr_l. apply Rmult_le_compat_l; [lra|]. nra. }
      assert (Eex : Rabs (p' + w' - (rv b0 - (rv r * rv x + D))) <= (4 * nn + 1) * u * S).
      { replace (p' + w' - (rv b0 - (rv r * rv x + D))) with ((p' - - rv x * rv r) + (w' - (rv b0 - D))) by ring. eapply Rle_trans; [apply Rabs_triang|]. lra. }
      assert (Aex : Rabs (rv b0 - (rv r * rv x + D)) <= S).
      { replace (rv b0 - (rv r * rv x + D)) with (rv b0 + (- rv x * rv r + - D)) by ring. eapply Rle_trans; [apply Rabs_triang|].
        pose proof (Rabs_triang (- rv x * rv r) (- D)) as Ht. rewrite (Rabs_Ropp D) in Ht. nra. }
      assert (Asum : Rabs (p' + w') <= 2 * S).
      { replace (p' + w') with ((p' + w' - (rv b0 - (rv r * rv x + D))) + (rv b0 - (rv r * rv x + D))) by ring. eapply Rle_trans; [apply Rabs_triang|].
        assert ((4 * nn + 1) * u * S <= 1 * S) by (apply Rmult_le_compat_r; nra). lra. }
      pose proof (rnd_add_err prec emax Hp p' w' (val_format _ _ _ _ Vp') (val_format _ _ _ _ Vw')) as Er. rewrite <- Ec in Er.
      assert (u * Rabs (p' + w') <= u * (2 * S)) by (apply Rmult_le_compat_l; lra).
      replace (c - (rv b0 - (rv r * rv x + D))) with ((c - (p' + w')) + (p' + w' - (rv b0 - (rv r * rv x + D)))) by ring. eapply Rle_trans; [apply Rabs_triang|]. assert (0 <= u * S) by nra. lra.
  Qed.

  Lemma backsub_valid M b0 row xs : fin b0 -> bounded M row -> Forall fin xs -> valid_binary prec emax (backsub b0 (zip row xs)) = true.
  Proof.
    intros F0 HB. revert xs. induction HB as [|r row [[a Vr] _] HB IH]; intros xs HF; cbn [zip zip_with backsub foldr fst snd]; [destruct F0 as [a V]; apply V|].
    destruct HF as [|x xs [v Vx] HF]; [destruct F0 as [a' V]; apply V|]. cbn [zip zip_with foldr fst snd].
    apply add_valid; try assumption; apply mul_valid; try assumption; try apply one_val; [|apply IH, HF].
    apply mul_valid; try assumption; [apply (val_opp prec emax _ _ Vx)|apply Vr].
  Qed.
  (** the row of the pivot *)
  Lemma pivot_row M be b0 d0 row xs : fin b0 -> Rabs (rv b0) <= be -> fin d0 -> rv d0 <> 0 -> Rabs (rv d0) <= M -> mu <= be -> bounded M row -> Forall fin xs ->
    length row = length xs -> 8 * INR (length xs) * u <= 1 -> fin (SFdiv prec emax (backsub b0 (zip row xs)) d0) ->
    Rabs (rv d0 * rv (SFdiv prec emax (backsub b0 (zip row xs)) d0) + dot (map rv row) (map rv xs) - rv b0) <=
      (4 * INR (length xs) + 2) * u * (be + M * (norm1 (map rv xs) + mu)).
  Proof.
    intros F0 A0 Fd Hd Ad Hbe HB HF Hl Hn [c Vc]. pose proof u_le as U. pose proof mu_le as MU. pose proof (Rabs_pos (rv d0)).
    destruct (div_back prec emax Hp Hm _ _ _ _ (backsub_valid M b0 row xs F0 HB HF) (fin_val _ Fd) Hd Vc) as (a & Va & Ec).
    rewrite (val_rv _ _ Vc). set (S := be + M * norm1 (map rv xs)). pose proof (norm1_pos (map rv xs)) as N1. pose proof (pos_INR (length xs)) as Pn.
    pose proof (backsub_ok M be b0 F0 A0 Hbe ltac:(lra) row xs S HB HF Hl ltac:(unfold S; lra) Hn (ex_intro _ _ Va)) as E. rewrite (val_rv _ _ Va) in E.
    set (D := dot (map rv row) (map rv xs)) in *. set (nn := INR (length xs)) in *.
    assert (AD : Rabs D <= M * norm1 (map rv xs)) by (apply (dot_le rv); [lra|]; intros c' Hc'; apply (proj1 (Forall_forall _ _) HB c' Hc')).
    assert (SP : 0 <= S) by (unfold S; nra).
    assert (Aa : Rabs a <= 3 / 2 * S).
    { replace a with ((a - (rv b0 - D)) + (rv b0 + - D)) by ring. eapply Rle_trans; [apply Rabs_triang|]. pose proof (Rabs_triang (rv b0) (- D)) as Ht. rewrite (Rabs_Ropp D) in Ht.
      assert (4 * nn * u * S <= / 2 * S) by (apply Rmult_le_compat_r; lra). unfold S in *. lra. }
    pose proof (rnd_err prec emax Hp (a / rv d0)) as Er. rewrite <- Ec in Er.
    assert (Edc : Rabs (rv d0 * c - a) <= u * Rabs a + u * (M * mu)).
    { replace (rv d0 * c - a) with (rv d0 * (c - a / rv d0)) by (field; exact Hd). rewrite Rabs_mult.
      apply Rle_trans with (Rabs (rv d0) * (u * Rabs (a / rv d0) + u * mu)); [apply Rmult_le_compat_l; lra|]. unfold Rdiv. rewrite Rabs_mult, Rabs_inv.
      replace (Rabs (rv d0) * (u * (Rabs a * / Rabs (rv d0)) + u * mu)) with (u * Rabs a + u * (Rabs (rv d0) * mu)) by (field; apply Rabs_no_R0, Hd).
      apply Rplus_le_compat_l, Rmult_le_compat_l; [lra|]. apply Rmult_le_compat_r; lra. }
    assert (u * Rabs a <= u * (3 / 2 * S)) by (apply Rmult_le_compat_l; lra).
    replace (rv d0 * c + D - rv b0) with ((rv d0 * c - a) + (a - (rv b0 - D))) by ring. eapply Rle_trans; [apply Rabs_triang|].
    assert (0 <= u * S) by nra. assert (0 <= nn * (u * (M * mu))) by (apply Rmult_le_pos; [exact Pn|]; apply Rmult_le_pos; [lra|]; apply Rmult_le_pos; lra).
    assert (0 <= u * (M * mu)) by (apply Rmult_le_pos; [lra|]; apply Rmult_le_pos; lra).
    replace (be + M * (norm1 (map rv xs) + mu)) with (S + M * mu) by (unfold S; ring). lra.
  Qed.

  Lemma gauss_zero n c0 cs b M : length c0 = S n -> bounded M c0 -> cell (icamax c0) c0 = 0 -> gauss (S n) (c0 :: cs) b = None.
  Proof.
    intros H0 HB Hz. assert (Hk : (icamax c0 < S n)%nat) by (rewrite <- H0; apply icamax_lt; intros ->; discriminate).
    cbn [gauss]. assert (Ez : seqb (nth (icamax c0) c0 szero) szero = true).
    { apply seqb_zero; [eexists; apply (cell_ok M c0 _ HB); lia|exact Hz]. }
    rewrite Ez. cbv iota zeta. rewrite !swap_nil. destruct (gauss n _ _); [|reflexivity].
    assert (Ef : seqb (first c0) szero = true).
    { apply seqb_zero; [eexists; apply (cell_ok M c0 0 HB); lia|]. pose proof (icamax_max M c0 HB 0 ltac:(lia)) as Hle. rewrite Hz, Rabs_R0 in Hle.
      pose proof (Rabs_pos (cell 0 c0)). destruct (Req_dec (cell 0 c0) 0) as [E|E]; [exact E|]. apply Rabs_pos_lt in E. lra. }
    rewrite Ef. reflexivity.
  Qed.
  Lemma gauss_nonzero n c0 cs b M : length c0 = S n -> Forall (fun c => length c = S n) cs -> length b = S n -> bounded M c0 -> let k := icamax c0 in cell k c0 <> 0 ->
    gauss (S n) (c0 :: cs) b =
      match gauss n (map (reduct k (coefs k c0)) cs) (rhs k (coefs k c0) b) with
      | None => None
      | Some xs => Some (SFdiv prec emax (backsub (nth k b szero) (zip (map (fun c => nth k c szero) cs) xs)) (nth k c0 szero) :: xs)
      end.
  Proof.
    intros H0 Hcs Hb HB k Hz. assert (Hk : (k < S n)%nat) by (rewrite <- H0; apply icamax_lt; intros ->; discriminate).
    cbn [gauss]. fold k. assert (Ez : seqb (nth k c0 szero) szero = false).
    { destruct (seqb (nth k c0 szero) szero) eqn:E; [|reflexivity]. exfalso. apply Hz. apply seqb_zero in E; [exact E|]. eexists; apply (cell_ok M c0 _ HB); lia. }
    rewrite Ez. cbv iota zeta. rewrite !List.map_map. fold (coefs k c0).
    change (fun x : list spec_float => axpy (sneg (first (swap_rows k x))) (coefs k c0) (tail (swap_rows k x))) with (reduct k (coefs k c0)).
    fold (rhs k (coefs k c0) b). destruct (gauss n _ _) as [xs|]; [|reflexivity].
    unfold first. rewrite !(nth_swap szero k) by lia. cbn [swp]. rewrite Ez. f_equal. f_equal. unfold backsub. cbn [sdiv FSi FScalar]. f_equal. f_equal. f_equal.
    apply List.map_ext_in. intros c Hc. rewrite nth_swap; [reflexivity|]. apply elem_of_list_In in Hc. rewrite (proj1 (Forall_forall _ _) Hcs c Hc). exact Hk.
  Qed.
  Lemma inv_bad n c0 cs b M : length c0 = S n -> length cs = n -> Forall (fun c => length c = S n) cs -> length b = S n -> bounded M c0 -> let k := icamax c0 in
    cell k c0 <> 0 -> ~ fin (sdiv sone (nth k c0 szero)) ->
    exists x, gauss n (map (reduct k (coefs k c0)) cs) (rhs k (coefs k c0) b) = Some x /\ (n <> 0%nat -> Exists bad x).
  Proof.
    intros H0 Hl Hcs Hb HB k Hz Hinv. assert (Hk : (k < S n)%nat) by (rewrite <- H0; apply icamax_lt; intros ->; discriminate).
    pose proof (div_bad _ _ _ _ one_val (proj1 (cell_ok M c0 k HB ltac:(lia))) Hz Hinv) as Hbad.
    assert (Bco : bads (coefs k c0)) by (apply Forall_map, Forall_forall; intros x _; apply bad_mul_r, Hbad).
    pose proof (coefs_length n k c0 H0) as Lco. apply gauss_bad.
    - split; [rewrite map_length; exact Hl|]. apply Forall_map. eapply Forall_impl; [exact Hcs|]. cbn. intros c Hc. apply reduct_length; assumption.
    - apply rhs_length; assumption.
    - apply Forall_map, Forall_forall. intros c _. apply bads_axpy, Bco.
    - apply bads_axpy, Bco.
  Qed.
  Lemma rows_cases n k i : (k < S n)%nat -> (i < S n)%nat -> i = k \/ exists j, (j < n)%nat /\ i = swp k (S j).
  Proof.
    intros Hk Hi. pose proof (swp_twice k i) as E. pose proof (swp_lt k i (S n) Hk Hi) as Hlt. destruct (swp k i) as [|j]; [left; rewrite <- E; reflexivity|].
    right. exists j. split; [lia|]. symmetry. exact E.
  Qed.
  Definition squareB (n : nat) (M : R) (cols : list (list spec_float)) : Prop := square n cols /\ Forall (bounded M) cols.
  Lemma map_cell_nth k cs : map rv (map (fun c => nth k c szero) cs) = map (cell k) cs.
  Proof. apply List.map_map. Qed.
  Lemma bounded_row n M cs k : (k < n)%nat -> Forall (fun c => length c = n) cs -> Forall (bounded M) cs -> bounded M (map (fun c => nth k c szero) cs).
  Proof.
    intros Hk Hl HB. apply Forall_map, Forall_forall. intros c Hc. pose proof (proj1 (Forall_forall _ _) Hl c Hc) as Lc. cbn in Lc.
    destruct (cell_ok M c k (proj1 (Forall_forall _ _) HB c Hc) ltac:(lia)) as [V A]. split; [eexists; exact V|exact A].
  Qed.
  Lemma gauss_length n : forall cols b xs, square n cols -> length b = n -> gauss n cols b = Some xs -> length xs = n.
  Proof.
    induction n as [|n IH]; intros cols b x [Hl Hc] Hb E; [destruct cols; [|discriminate]; injection E as <-; reflexivity|].
    destruct cols as [|c0 cs]; [discriminate|]. injection Hl as Hl. apply Forall_cons in Hc as [Hc0 Hcs]. cbn [gauss] in E.
    destruct (gauss n _ _) as [xs|] eqn:Eg; [|discriminate]. destruct (seqb _ _) eqn:Ez in E; [discriminate|]. injection E as <-. cbn [length]. f_equal.
    set (z := seqb (nth (icamax c0) c0 szero) szero) in Eg. set (k := if z then 0%nat else icamax c0) in Eg.
    assert (L0 : length (tail (swap_rows k c0)) = n) by (apply tail_length_1; rewrite swap_rows_length; exact Hc0).
    assert (Lb : length (tail (swap_rows k b)) = n) by (apply tail_length_1; rewrite swap_rows_length; exact Hb).
    eapply IH; [| |exact Eg].
    - pose proof (swap_cols _ k cs Hcs) as Hcs'. split; [destruct z; rewrite !map_length; exact Hl|].
      destruct z; apply Forall_map; (eapply Forall_impl; [exact Hcs'|]); cbn; intros c Ec; pose proof (tail_length_1 c n Ec) as Et; [exact Et|].
      rewrite axpy_length; rewrite map_length; congruence.
    - rewrite axpy_length; destruct z; rewrite ?map_length; congruence.
  Qed.

  (** ** the residual *)
  Definition K (n : nat) : R := 6 * 3 ^ n - 5 / 2 * INR n - 11 / 2.
  Lemma K_S n : K (S n) = 3 * K n + 5 * INR n + 17 / 2.
  Proof. unfold K. rewrite S_INR. cbn [Rpow_def.pow]. field. Qed.
  Lemma K_pos n : 0 < K n.
  Proof. induction n as [|n IH]; [unfold K; cbn; lra|]. rewrite K_S. pose proof (pos_INR n). lra. Qed.
  Lemma pow3 n : 1 <= 3 ^ n.
  Proof. apply pow_R1_Rle. lra. Qed.
  Theorem gauss_residual n : forall cols b x M be, squareB n M cols -> length b = n -> bounded be b -> mu <= M -> mu <= be -> 3 ^ n * M <= BIG -> 3 ^ n * be <= BIG ->
    8 * INR n * u <= 1 -> gauss n cols b = Some x -> Forall fin x -> forall i, (i < n)%nat ->
    Rabs (dot (map (cell i) cols) (map rv x) - cell i b) <= K n * u * (be + M * (norm1 (map rv x) + mu)).
  Proof.
    induction n as [|n IH]; intros cols b x M be [[Hl Hc] HBc] Hb Bb HM Hbe HMB HbB Hn E Fx i Hi; [lia|].
    destruct cols as [|c0 cs]; [discriminate|]. injection Hl as Hl. apply Forall_cons in Hc as [Hc0 Hcs]. pose proof HBc as HBc'. apply Forall_cons in HBc' as [HB0 HBs].
    pose proof u_le as U. pose proof mu_le as MU. pose proof (pow3 n) as P3. cbn [Rpow_def.pow] in HMB, HbB. rewrite S_INR in Hn. pose proof (pos_INR n) as Pn.
    assert (HM3 : 3 * M <= BIG) by nra. assert (Hb3 : 3 * be <= BIG) by nra.
    destruct (Req_dec (cell (icamax c0) c0) 0) as [Hz|Hz]; [rewrite (gauss_zero n c0 cs b M Hc0 HB0 Hz) in E; discriminate|].
    rewrite (gauss_nonzero n c0 cs b M Hc0 Hcs Hb HB0 Hz) in E. set (k := icamax c0) in *.
    assert (Hk : (k < S n)%nat) by (rewrite <- Hc0; apply icamax_lt; intros ->; discriminate).
    destruct (gauss n _ _) as [xs|] eqn:Eg; [|discriminate]. injection E as <-. apply Forall_cons in Fx as [F0 Fx].
    set (x0 := SFdiv _ _ _ _) in *. cbn [map norm1 dot].
    assert (Lsub : square n (map (reduct k (coefs k c0)) cs)).
    { split; [rewrite map_length; exact Hl|]. apply Forall_map. eapply Forall_impl; [exact Hcs|]. cbn. intros c Ec. apply reduct_length; [apply coefs_length, Hc0|exact Ec]. }
    assert (Lrhs : length (rhs k (coefs k c0) b) = n) by (apply rhs_length; [apply coefs_length, Hc0|exact Hb]).
    assert (Lxs : length xs = n) by (exact (gauss_length n _ _ xs Lsub Lrhs Eg)).
    destruct (cell_ok M c0 k HB0 ltac:(lia)) as [Vd Ad]. destruct (cell_ok be b k Bb ltac:(lia)) as [Vb Ab].
    set (X := norm1 (map rv xs)) in *. pose proof (norm1_pos (map rv xs)) as N1. fold X in N1. pose proof (Rabs_pos (rv x0)) as A0.
    assert (R0 : Rabs (cell k c0 * rv x0 + dot (map (cell k) cs) (map rv xs) - cell k b) <= (4 * INR n + 2) * u * (be + M * (X + mu))).
    { pose proof (pivot_row M be (nth k b szero) (nth k c0 szero) (map (fun c => nth k c szero) cs) xs (ex_intro _ _ Vb) Ab (ex_intro _ _ Vd) Hz Ad Hbe
        (bounded_row (S n) M cs k Hk Hcs HBs) Fx ltac:(rewrite map_length; congruence) ltac:(rewrite Lxs; nra) F0) as G.
      rewrite map_cell_nth, Lxs in G. exact G. }
    set (Q := be + M * (Rabs (rv x0) + X + mu)).
    assert (UQ : 0 <= u * Q) by (unfold Q; apply Rmult_le_pos; [lra|]; assert (0 <= M * (Rabs (rv x0) + X + mu)) by (apply Rmult_le_pos; lra); lra).
    assert (Q0 : u * (be + M * (X + mu)) <= u * Q) by (unfold Q; apply Rmult_le_compat_l; [lra|]; assert (0 <= M * Rabs (rv x0)) by (apply Rmult_le_pos; lra); lra).
    rewrite K_S. pose proof (K_pos n) as KP.
    assert (R0' : Rabs (cell k c0 * rv x0 + dot (map (cell k) cs) (map rv xs) - cell k b) <= (4 * INR n + 2) * (u * Q)).
    { eapply Rle_trans; [exact R0|]. rewrite Rmult_assoc. apply Rmult_le_compat_l; lra. }
    destruct (rows_cases n k i Hk Hi) as [->|(j & Hj & ->)].
    - eapply Rle_trans; [exact R0'|]. rewrite Rmult_assoc. apply Rmult_le_compat_r; lra.
    - destruct (classic_fin (sdiv sone (nth k c0 szero))) as [Hinv|Hinv].
      2:{ exfalso. destruct (inv_bad n c0 cs b M Hc0 Hl Hcs Hb HB0 Hz Hinv) as (x' & E & HE). fold k in E. rewrite Eg in E. injection E as <-.
          destruct (proj1 (Exists_exists _ _) (HE ltac:(lia))) as (y & Hy & Hybad). exact (bad_fin y Hybad (proj1 (Forall_forall _ _) Fx y Hy)). }
      destruct (stage n c0 cs b M be Hc0 Hcs Hb HBc Bb HM Hbe HM3 Hb3 Hz Hinv) as (HBs' & HBb' & Hst). fold k in HBs', HBb', Hst.
      destruct (Hst j Hj) as (Al & El & Ed & Eb). set (l := cell j (coefs k c0)) in *.
      specialize (IH _ _ xs (3 * M) (3 * be) (conj Lsub HBs') Lrhs HBb' ltac:(lra) ltac:(lra) ltac:(lra) ltac:(lra) ltac:(nra) Eg Fx j Hj).
      specialize (Ed (map rv xs)). fold X in Ed, IH. set (D' := dot (map (cell j) _) (map rv xs)) in *. set (D := dot (map (cell (swp k (S j))) cs) (map rv xs)) in *.
      set (D0 := dot (map (cell k) cs) (map rv xs)) in *. set (b' := cell j (rhs k (coefs k c0) b)) in *. set (bi := cell (swp k (S j)) b) in *.
      set (d := cell k c0) in *. set (ai := cell (swp k (S j)) c0) in *. set (b0 := cell k b) in *. set (y := rv x0) in *.
      replace (ai * y + D - bi) with ((D' - b') + l * (d * y + D0 - b0) + (- (l * d - ai) * y) + (- (D' - (D - l * D0))) + (b' - (bi - l * b0))) by ring.
      assert (T1 : Rabs (D' - b') <= 3 * K n * (u * Q)).
      { eapply Rle_trans; [exact IH|]. replace (K n * u * (3 * be + 3 * M * (X + mu))) with (3 * K n * (u * (be + M * (X + mu)))) by ring. apply Rmult_le_compat_l; lra. }
      assert (T2 : Rabs (l * (d * y + D0 - b0)) <= 5 / 4 * ((4 * INR n + 2) * (u * Q))).
      { rewrite Rabs_mult. apply Rmult_le_compat; try apply Rabs_pos; [lra|exact R0']. }
      assert (T3 : Rabs (- (l * d - ai) * y) <= 5 * u * M * Rabs y).
      { rewrite Rabs_mult, Rabs_Ropp. apply Rmult_le_compat_r; assumption. }
      pose proof (Rabs_triang (D' - b' + l * (d * y + D0 - b0) + - (l * d - ai) * y + - (D' - (D - l * D0))) (b' - (bi - l * b0))) as G1.
      pose proof (Rabs_triang (D' - b' + l * (d * y + D0 - b0) + - (l * d - ai) * y) (- (D' - (D - l * D0)))) as G2.
      pose proof (Rabs_triang (D' - b' + l * (d * y + D0 - b0)) (- (l * d - ai) * y)) as G3.
      pose proof (Rabs_triang (D' - b') (l * (d * y + D0 - b0))) as G4. rewrite (Rabs_Ropp (D' - (D - l * D0))) in G2.
      assert (T4 : 5 * u * M * Rabs y + 6 * u * M * X + 6 * u * be <= 6 * (u * Q)).
      { unfold Q. assert (0 <= u * M) by (apply Rmult_le_pos; lra). assert (0 <= u * M * Rabs y) by (apply Rmult_le_pos; lra).
        assert (0 <= u * M * mu) by (apply Rmult_le_pos; lra). lra. }
      fold Q. lra.
  Qed.

  (** ** no answer: the columns are nearly dependent *)
  Definition N (n : nat) : R := 3 * 3 ^ n - 3.
  Lemma N_S n : N (S n) = 3 * N n + 6.
  Proof. unfold N. cbn [Rpow_def.pow]. ring. Qed.
  Lemma N_pos n : 0 <= N n.
  Proof. unfold N. pose proof (pow3 n). lra. Qed.
  Lemma norm1_repeat n : norm1 (repeat 0 n) = 0.
  Proof. induction n as [|n IH]; cbn; [reflexivity|]. rewrite IH, Rabs_R0. ring. Qed.
  Lemma dot_repeat l n : dot l (repeat 0 n) = 0.
  Proof. revert n. induction l as [|y l IH]; intros [|n]; cbn; try reflexivity. rewrite IH. ring. Qed.
  (** what an approximate solution of the reduced system gives for the whole one *)
  Lemma extend n c0 cs b M be (y : list R) e : length c0 = S n -> Forall (fun c => length c = S n) cs -> length b = S n ->
    Forall (bounded M) (c0 :: cs) -> bounded be b -> mu <= M -> mu <= be -> 3 * M <= BIG -> 3 * be <= BIG ->
    let k := icamax c0 in cell k c0 <> 0 -> fin (sdiv sone (nth k c0 szero)) -> 0 <= e ->
    (forall i, (i < n)%nat -> Rabs (dot (map (cell i) (map (reduct k (coefs k c0)) cs)) y) <= e) ->
    exists y0, forall i, (i < S n)%nat -> Rabs (dot (map (cell i) (c0 :: cs)) (y0 :: y)) <= e + 6 * u * M * norm1 (y0 :: y).
  Proof.
    intros Hc0 Hcs Hb HBc Bb HM Hbe HM3 Hb3 k Hz Hinv He Hy. pose proof u_le as U. pose proof mu_le as MU.
    assert (Hk : (k < S n)%nat) by (rewrite <- Hc0; apply icamax_lt; intros ->; discriminate).
    destruct (stage n c0 cs b M be Hc0 Hcs Hb HBc Bb HM Hbe HM3 Hb3 Hz Hinv) as (_ & _ & Hst). fold k in Hst.
    set (D0 := dot (map (cell k) cs) y) in *. set (d := cell k c0) in *. exists (- D0 / d). intros i Hi. cbn [map dot norm1].
    set (y0 := - D0 / d). assert (E0 : d * y0 + D0 = 0) by (unfold y0; field; exact Hz).
    pose proof (norm1_pos y) as N1. pose proof (Rabs_pos y0) as A0.
    assert (UM : 0 <= u * M) by (apply Rmult_le_pos; lra). assert (UN : 0 <= u * M * Rabs y0) by (apply Rmult_le_pos; assumption). assert (UY : 0 <= u * M * norm1 y) by (apply Rmult_le_pos; assumption).
    destruct (rows_cases n k i Hk Hi) as [->|(j & Hj & ->)].
    - fold d D0. rewrite E0, Rabs_R0. lra.
    - destruct (Hst j Hj) as (Al & El & Ed & _). specialize (Ed y). specialize (Hy j Hj). fold D0 in Ed. set (l := cell j (coefs k c0)) in *.
      set (D' := dot (map (cell j) _) y) in *. set (D := dot (map (cell (swp k (S j))) cs) y) in *. set (ai := cell (swp k (S j)) c0) in *.
      replace (ai * y0 + D) with (D' + l * (d * y0 + D0) + (- (l * d - ai) * y0) + (- (D' - (D - l * D0)))) by ring. rewrite E0, Rmult_0_r, Rplus_0_r.
      assert (T3 : Rabs (- (l * d - ai) * y0) <= 5 * u * M * Rabs y0) by (rewrite Rabs_mult, Rabs_Ropp; apply Rmult_le_compat_r; assumption).
      pose proof (Rabs_triang (D' + - (l * d - ai) * y0) (- (D' - (D - l * D0)))) as G2. rewrite (Rabs_Ropp (D' - (D - l * D0))) in G2.
      pose proof (Rabs_triang D' (- (l * d - ai) * y0)) as G3. lra.
  Qed.
  Lemma unit_dot n c0 cs i : dot (map (cell i) (c0 :: cs)) (1 :: repeat 0 n) = cell i c0.
  Proof. cbn [map dot]. rewrite dot_repeat. ring. Qed.
  Theorem gauss_none n : forall cols b M be, squareB n M cols -> length b = n -> bounded be b -> mu <= M -> mu <= be -> 3 ^ n * M <= BIG -> 3 ^ n * be <= BIG ->
    gauss n cols b = None ->
    exists y, length y = n /\ 0 < norm1 y /\ forall i, (i < n)%nat -> Rabs (dot (map (cell i) cols) y) <= N n * u * M * norm1 y.
  Proof.
    induction n as [|n IH]; intros cols b M be [[Hl Hc] HBc] Hb Bb HM Hbe HMB HbB E; [destruct cols; discriminate|].
    destruct cols as [|c0 cs]; [discriminate|]. injection Hl as Hl. apply Forall_cons in Hc as [Hc0 Hcs]. pose proof HBc as HBc'. apply Forall_cons in HBc' as [HB0 HBs].
    pose proof u_le as U. pose proof mu_le as MU. pose proof (pow3 n) as P3. cbn [Rpow_def.pow] in HMB, HbB. pose proof (N_pos n) as PN.
    assert (HM3 : 3 * M <= BIG) by nra. assert (Hb3 : 3 * be <= BIG) by nra.
    destruct (Req_dec (cell (icamax c0) c0) 0) as [Hz|Hz].
    - exists (1 :: repeat 0 n). cbn [length norm1]. rewrite repeat_length, norm1_repeat, Rabs_R1. split; [reflexivity|]. split; [lra|].
      intros i Hi. rewrite unit_dot. pose proof (icamax_max M c0 HB0 i ltac:(lia)) as Hle. rewrite Hz, Rabs_R0 in Hle. eapply Rle_trans; [exact Hle|].
      pose proof (N_pos (S n)). apply Rmult_le_pos; [|lra]. apply Rmult_le_pos; [|lra]. apply Rmult_le_pos; lra.
    - rewrite (gauss_nonzero n c0 cs b M Hc0 Hcs Hb HB0 Hz) in E. set (k := icamax c0) in *.
      assert (Lsub : square n (map (reduct k (coefs k c0)) cs)).
      { split; [rewrite map_length; exact Hl|]. apply Forall_map. eapply Forall_impl; [exact Hcs|]. cbn. intros c Ec. apply reduct_length; [apply coefs_length, Hc0|exact Ec]. }
      assert (Lrhs : length (rhs k (coefs k c0) b) = n) by (apply rhs_length; [apply coefs_length, Hc0|exact Hb]).
      destruct (gauss n _ _) as [xs|] eqn:Eg; [discriminate|].
      destruct (classic_fin (sdiv sone (nth k c0 szero))) as [Hinv|Hinv].
      2:{ exfalso. destruct (inv_bad n c0 cs b M Hc0 Hl Hcs Hb HB0 Hz Hinv) as (x' & E' & _). fold k in E'. congruence. }
      destruct (stage n c0 cs b M be Hc0 Hcs Hb HBc Bb HM Hbe HM3 Hb3 Hz Hinv) as (HBs' & HBb' & _). fold k in HBs', HBb'.
      destruct (IH _ _ (3 * M) (3 * be) (conj Lsub HBs') Lrhs HBb' ltac:(lra) ltac:(lra) ltac:(lra) ltac:(lra) Eg) as (y & Ly & Py & Hy).
      assert (UM : 0 <= u * M) by (apply Rmult_le_pos; lra).
      assert (He : 0 <= N n * u * (3 * M) * norm1 y) by (replace (N n * u * (3 * M) * norm1 y) with (3 * (N n * (u * M) * norm1 y)) by ring; apply Rmult_le_pos; [lra|]; apply Rmult_le_pos; [apply Rmult_le_pos|]; lra).
      destruct (extend n c0 cs b M be y _ Hc0 Hcs Hb HBc Bb HM Hbe HM3 Hb3 Hz Hinv He Hy) as (y0 & Hy0).
      exists (y0 :: y). cbn [length norm1]. pose proof (Rabs_pos y0) as A0. split; [congruence|]. split; [lra|]. intros i Hi. eapply Rle_trans; [apply Hy0, Hi|]. cbn [norm1]. rewrite N_S.
      assert (0 <= N n * (u * M) * Rabs y0) by (apply Rmult_le_pos; [apply Rmult_le_pos|]; lra). lra.
  Qed.

  (** ** a matrix that moves everything has an answer *)
  Definition expandsB (n : nat) (lam : R) (cols : list (list spec_float)) : Prop :=
    forall y e, length y = n -> 0 <= e -> (forall i, (i < n)%nat -> Rabs (dot (map (cell i) cols) y) <= e) -> lam * norm1 y <= e.
  Lemma backsub_fin M be b0 : fin b0 -> Rabs (rv b0) <= be -> mu <= be -> 0 <= M -> forall row xs S, bounded M row -> Forall fin xs -> length row = length xs ->
    be + M * norm1 (map rv xs) <= S -> 8 * INR (length xs) * u <= 1 -> 4 * S <= BIG ->
    fin (backsub b0 (zip row xs)) /\ Rabs (rv (backsub b0 (zip row xs))) <= 3 / 2 * S.
  Proof.
    intros F0 A0 Hbe HM row xs S HB HF Hl HS Hn HSB. pose proof u_le as U. pose proof mu_le as MU. pose proof (Rabs_pos (rv b0)) as Ab0.
    assert (SP : mu <= S) by (pose proof (norm1_pos (map rv xs)); nra).
    assert (G : forall row xs, bounded M row -> Forall fin xs -> length row = length xs -> be + M * norm1 (map rv xs) <= S -> 8 * INR (length xs) * u <= 1 ->
      fin (backsub b0 (zip row xs)) -> Rabs (rv (backsub b0 (zip row xs))) <= 3 / 2 * S).
    { clear row xs HB HF Hl HS Hn. intros row xs HB HF Hl HS Hn Hfin. pose proof (backsub_ok M be b0 F0 A0 Hbe HM row xs S HB HF Hl HS Hn Hfin) as E. set (a := rv (backsub _ _)) in *. set (D := dot (map rv row) (map rv xs)) in *.
      assert (AD : Rabs D <= M * norm1 (map rv xs)) by (apply (dot_le rv); [lra|]; intros c' Hc'; apply (proj1 (Forall_forall _ _) HB c' Hc')).
      replace a with ((a - (rv b0 - D)) + (rv b0 + - D)) by ring. eapply Rle_trans; [apply Rabs_triang|]. pose proof (Rabs_triang (rv b0) (- D)) as Ht. rewrite (Rabs_Ropp D) in Ht.
      assert (4 * INR (length xs) * u * S <= / 2 * S) by (apply Rmult_le_compat_r; lra). lra. }
    assert (Hfin : fin (backsub b0 (zip row xs))); [|split; [exact Hfin|apply G; assumption]].
    revert xs HB HF Hl HS Hn. induction row as [|r row IH]; intros [|x xs] HB HF Hl HS Hn; try discriminate Hl; [exact F0|].
    injection Hl as Hl. apply Forall_cons in HB as [[Fr Ar] HB]. apply Forall_cons in HF as [Fx HF]. cbn [zip zip_with backsub foldr fst snd]. fold (backsub b0 (zip row xs)).
    cbn [map norm1 length] in HS, Hn. rewrite S_INR in Hn. pose proof (norm1_pos (map rv xs)) as N1. pose proof (Rabs_pos (rv x)) as Ax. pose proof (pos_INR (length xs)) as Pn.
    assert (HS' : be + M * norm1 (map rv xs) <= S) by nra. assert (Hn' : 8 * INR (length xs) * u <= 1) by nra.
    specialize (IH xs HB HF Hl HS' Hn'). pose proof (G row xs HB HF Hl HS' Hn' IH) as Ay.
    assert (Arx : Rabs (- rv x * rv r) <= S).
    { rewrite Rabs_mult, Rabs_Ropp, Rmult_comm. assert (Rabs (rv r) * Rabs (rv x) <= M * Rabs (rv x)) by (apply Rmult_le_compat_r; assumption). nra. }
    destruct (mul_ok prec emax Hp Hm _ _ _ _ (val_opp prec emax _ _ (fin_val _ Fx)) (fin_val _ Fr)) as (p & Vp & Ep); [rewrite (big_double emax); lra|].
    assert (Ap : Rabs p <= 2 * S).
    { replace p with ((p - - rv x * rv r) + - rv x * rv r) by ring. eapply Rle_trans; [apply Rabs_triang|].
      assert (u * Rabs (- rv x * rv r) <= u * S) by (apply Rmult_le_compat_l; lra). assert (u * S <= / 2048 * S) by (apply Rmult_le_compat_r; lra).
      assert (u * mu <= u * S) by (apply Rmult_le_compat_l; lra). lra. }
    destruct (add_ok prec emax Hp Hm _ _ _ _ (mul_one _ _ Vp) (one_mul _ _ (fin_val _ IH))) as (c & Vc & _); [|exists c; exact Vc].
    eapply Rle_trans; [apply Rabs_triang|]. rewrite (big_double emax). lra.
  Qed.

  Definition C (n : nat) : R := 15 * 3 ^ n - 3.
  Lemma C_S n : C (S n) = 3 * C n + 6.
  Proof. unfold C. cbn [Rpow_def.pow]. ring. Qed.
  Lemma C_K n : 2 * K n <= C n.
  Proof. unfold C, K. pose proof (pos_INR n). pose proof (pow3 n). lra. Qed.
  Theorem gauss_total lam0 H : mu <= lam0 -> 4 * H <= BIG -> 4 * H <= BIG * lam0 -> forall n cols b M be lam,
    squareB n M cols -> length b = n -> bounded be b -> mu <= M -> mu <= be -> 3 ^ n * M <= BIG -> 8 * INR n * u <= 1 ->
    expandsB n lam cols -> lam0 + C n * u * M <= lam -> 3 ^ n * be + 3 ^ n * M * (12 * (3 ^ n * be) / lam0 + mu) <= H ->
    exists x, gauss n cols b = Some x /\ Forall fin x.
  Proof.
    intros Hl0 HH HHl. pose proof u_le as U. pose proof mu_le as MU. pose proof big_mu as BMU. pose proof (big prec emax Hm Hprec) as HBIG.
    induction n as [|n IH]; intros cols b M be lam [[Hl Hc] HBc] Hb Bb HM Hbe HMB Hn Hex Hlam HHn; [destruct cols; [|discriminate]; exists []; split; [reflexivity|constructor]|].
    destruct cols as [|c0 cs]; [discriminate|]. injection Hl as Hl. apply Forall_cons in Hc as [Hc0 Hcs]. pose proof HBc as HBc'. apply Forall_cons in HBc' as [HB0 HBs].
    pose proof (pow3 n) as P3. cbn [Rpow_def.pow] in HMB, HHn. rewrite S_INR in Hn. pose proof (pos_INR n) as Pn. pose proof (K_pos n) as KP. pose proof (C_K n) as CK. rewrite C_S in Hlam.
    set (t := 3 ^ n) in *.
    assert (HM3 : 3 * M <= BIG) by nra.
    assert (UM : 0 < u * M) by (apply Rmult_lt_0_compat; lra).
    assert (CUM : 0 <= C n * (u * M)) by (apply Rmult_le_pos; lra).
    assert (P1 : be <= t * be) by nra. assert (P2 : M <= t * M) by nra.
    assert (Pq : 0 <= 12 * be / lam0) by (apply Rmult_le_pos; [lra|]; apply Rlt_le, Rinv_0_lt_compat; lra).
    assert (Pqt : 12 * be / lam0 <= 12 * (t * be) / lam0) by (unfold Rdiv; apply Rmult_le_compat_r; [apply Rlt_le, Rinv_0_lt_compat; lra|lra]).
    assert (HHt : 3 * (t * be) + 3 * (t * M) * (3 * (12 * (t * be) / lam0) + mu) <= H).
    { eapply Rle_trans; [|exact HHn]. right. field. lra. }
    assert (PtM : 0 <= t * M * (12 * (t * be) / lam0 + mu)) by (apply Rmult_le_pos; lra).
    assert (PtM2 : 0 <= t * M * (12 * (t * be) / lam0)) by (apply Rmult_le_pos; lra).
    assert (PtM3 : 0 <= t * M * mu) by (apply Rmult_le_pos; lra).
    assert (HHs : t * (3 * be) + t * (3 * M) * (12 * (t * (3 * be)) / lam0 + mu) <= H).
    { eapply Rle_trans; [|exact HHt]. right. field. lra. }
    assert (Hb3 : 3 * be <= BIG) by lra.
    assert (Hcol : lam <= Rabs (cell (icamax c0) c0)).
    { pose proof (Hex (1 :: repeat 0 n) (Rabs (cell (icamax c0) c0))) as G. cbn [length norm1] in G. rewrite repeat_length, norm1_repeat, Rabs_R1 in G.
      replace (lam * (1 + 0)) with lam in G by ring. apply G; [reflexivity|apply Rabs_pos|]. intros i Hi. rewrite unit_dot. apply (icamax_max M c0 HB0). lia. }
    assert (Hz : cell (icamax c0) c0 <> 0) by (intros Hz; rewrite Hz, Rabs_R0 in Hcol; lra).
    rewrite (gauss_nonzero n c0 cs b M Hc0 Hcs Hb HB0 Hz). set (k := icamax c0) in *.
    assert (Hk : (k < S n)%nat) by (rewrite <- Hc0; apply icamax_lt; intros ->; discriminate).
    destruct (cell_ok M c0 k HB0 ltac:(lia)) as [Vd Ad]. destruct (cell_ok be b k Bb ltac:(lia)) as [Vb Ab].
    assert (Hl0d : lam0 <= Rabs (cell k c0)) by lra.
    assert (Hinv : fin (sdiv sone (nth k c0 szero))).
    { eexists. apply (div_val _ _ _ _ one_val Vd Hz). apply (rnd_small prec emax Hp Hm). unfold Rdiv. rewrite Rmult_1_l, Rabs_inv, (big_double emax).
      apply Rle_trans with (/ mu); [apply Rinv_le_contravar; lra|]. replace (/ mu) with BIG; [lra|]. apply (Rmult_eq_reg_r mu); [|lra]. rewrite BMU. field. lra. }
    assert (Lsub : square n (map (reduct k (coefs k c0)) cs)).
    { split; [rewrite map_length; exact Hl|]. apply Forall_map. eapply Forall_impl; [exact Hcs|]. cbn. intros c Ec. apply reduct_length; [apply coefs_length, Hc0|exact Ec]. }
    assert (Lrhs : length (rhs k (coefs k c0) b) = n) by (apply rhs_length; [apply coefs_length, Hc0|exact Hb]).
    destruct (stage n c0 cs b M be Hc0 Hcs Hb HBc Bb HM Hbe HM3 Hb3 Hz Hinv) as (HBs' & HBb' & _). fold k in HBs', HBb'.
    assert (Hex' : expandsB n (lam - 6 * u * M) (map (reduct k (coefs k c0)) cs)).
    { intros y e Ly He Hy. destruct (extend n c0 cs b M be y e Hc0 Hcs Hb HBc Bb HM Hbe HM3 Hb3 Hz Hinv He Hy) as (y0 & Hy0). pose proof (norm1_pos (y0 :: y)) as NP.
      assert (G : lam * norm1 (y0 :: y) <= e + 6 * u * M * norm1 (y0 :: y)).
      { apply Hex; [cbn; congruence| |exact Hy0]. assert (0 <= u * M * norm1 (y0 :: y)) by (apply Rmult_le_pos; lra). lra. }
      assert (norm1 y <= norm1 (y0 :: y)) by (cbn; pose proof (Rabs_pos y0); lra).
      assert ((lam - 6 * u * M) * norm1 y <= (lam - 6 * u * M) * norm1 (y0 :: y)) by (apply Rmult_le_compat_l; lra). lra. }
    destruct (IH _ _ (3 * M) (3 * be) (lam - 6 * u * M) (conj Lsub HBs') Lrhs HBb' ltac:(lra) ltac:(lra) ltac:(unfold t in *; lra) ltac:(nra) Hex' ltac:(lra) HHs) as (xs & Eg & Fx).
    rewrite Eg. eexists. split; [reflexivity|]. apply Forall_cons. split; [|exact Fx].
    pose proof (gauss_length n _ _ xs Lsub Lrhs Eg) as Lxs.
    set (X := norm1 (map rv xs)). pose proof (norm1_pos (map rv xs)) as N1. fold X in N1.
    assert (CU : K n * u <= 1).
    { assert (K n * (u * M) <= C n / 2 * (u * M)) by (apply Rmult_le_compat_r; lra). assert (K n * u * M <= 1 * M) by lra. apply (Rmult_le_reg_r M); lra. }
    assert (HX : X <= 12 * be / lam0 + mu).
    { pose proof (gauss_residual n _ _ xs (3 * M) (3 * be) (conj Lsub HBs') Lrhs HBb' ltac:(lra) ltac:(lra) ltac:(unfold t in *; lra)) as GR. fold t in GR.
      assert (Hb3' : t * (3 * be) <= BIG) by lra. specialize (GR Hb3' ltac:(nra) Eg Fx). fold X in GR.
      set (R := K n * u * (3 * be + 3 * M * (X + mu))) in *.
      assert (RP : 0 <= R).
      { unfold R. apply Rmult_le_pos; [apply Rmult_le_pos; lra|]. assert (0 <= M * (X + mu)) by (apply Rmult_le_pos; lra). lra. }
      assert (G : (lam - 6 * u * M) * X <= 3 * be + R).
      { apply Hex'; [rewrite map_length; exact Lxs|lra|]. intros i Hi. specialize (GR i Hi). destruct (cell_ok (3 * be) _ i HBb' ltac:(lia)) as [_ Abi].
        set (D := dot _ _) in *. set (bi := cell i _) in *. replace D with ((D - bi) + bi) by ring. eapply Rle_trans; [apply Rabs_triang|]. lra. }
      assert (R1 : R <= 3 * be + (3 * C n * u * M / 2) * (X + mu)).
      { unfold R. assert (K n * u * (3 * be) <= 1 * (3 * be)) by (apply Rmult_le_compat_r; lra).
        assert (K n * (u * M) * (X + mu) <= C n / 2 * (u * M) * (X + mu)) by (apply Rmult_le_compat_r; [lra|]; apply Rmult_le_compat_r; lra). lra. }
      set (q := 3 * C n * u * M) in *. assert (Hq : lam0 + q <= lam - 6 * u * M) by (unfold q; lra). assert (Pq0 : 0 <= q) by (unfold q; lra).
      assert (G1 : (lam0 + q) * X <= 6 * be + q / 2 * (X + mu)) by (assert ((lam0 + q) * X <= (lam - 6 * u * M) * X) by (apply Rmult_le_compat_r; lra); lra).
      assert (G2 : (lam0 + q) * X <= 12 * be + (lam0 + q) * mu).
      { assert (0 <= q * X) by (apply Rmult_le_pos; lra). assert (0 <= lam0 * X) by (apply Rmult_le_pos; lra). assert (0 <= lam0 * mu) by (apply Rmult_le_pos; lra). lra. }
      apply (Rmult_le_reg_l (lam0 + q)); [lra|]. eapply Rle_trans; [exact G2|]. rewrite Rmult_plus_distr_l. apply Rplus_le_compat_r.
      unfold Rdiv. rewrite Rmult_plus_distr_r. assert (lam0 * (12 * be * / lam0) = 12 * be) as -> by (field; lra). assert (0 <= q * (12 * be / lam0)) by (apply Rmult_le_pos; assumption). unfold Rdiv in *. lra. }
    assert (HS : be + M * X <= H).
    { assert (M * X <= t * M * (12 * (t * be) / lam0 + mu)) by (apply Rmult_le_compat; lra). lra. }
    destruct (backsub_fin M be (nth k b szero) (ex_intro _ _ Vb) Ab Hbe ltac:(lra) (map (fun c => nth k c szero) cs) xs H (bounded_row (S n) M cs k Hk Hcs HBs) Fx
      ltac:(rewrite map_length; congruence) HS ltac:(rewrite Lxs; nra) HH) as (Fb & Ab').
    eexists. apply (div_val _ _ _ _ (fin_val _ Fb) Vd Hz). apply (rnd_small prec emax Hp Hm). unfold Rdiv. rewrite Rabs_mult, Rabs_inv, (big_double emax).
    apply Rle_trans with (3 / 2 * H * / lam0).
    - apply Rmult_le_compat; [apply Rabs_pos|apply Rlt_le, Rinv_0_lt_compat, Rabs_pos_lt, Hz|exact Ab'|apply Rinv_le_contravar; lra].
    - apply (Rmult_le_reg_r lam0); [lra|]. replace (3 / 2 * H * / lam0 * lam0) with (3 / 2 * H) by (field; lra). assert (0 <= BIG * lam0) by (apply Rmult_le_pos; lra). lra.
  Qed.
End LuAcc.
