(** * Proofs about error values and texts *)
From Coq Require Import String Reals ZArith Lra Lia Ascii Floats.SpecFloat.
From Flocq Require Import Core IEEE754.BinarySingleNaN.
From stdpp Require Import strings pretty.
From Verif Require Import Scalar ScalarF Geometry Joint SpecValues RangeProofs FloatSub ErrorM SpecError.

(** ** widening *)
Section Widen.
  Context (prec emax prec' emax' : Z) (Hp : Prec_gt_0 prec) (Hm : Prec_lt_emax prec emax) (Hp' : Prec_gt_0 prec') (Hm' : Prec_lt_emax prec' emax').
  Lemma widen_value x : (prec <= prec')%Z -> (emax <= emax')%Z -> valid_binary prec emax x = true -> same_value (SFconv prec' emax' x) x.
  Proof.
    intros Hpp Hee Hx. unfold same_value. destruct x as [s|s| |s m e]; try reflexivity.
    rewrite (conv_value prec' emax' Hp' Hm'). set (r := (IZR _ * _)%R).
    assert (Hg : generic_format radix2 (SpecFloat.fexp prec emax) r) by apply (generic_format_B2R prec emax (SF2B _ Hx)).
    assert (Hr : round radix2 (SpecFloat.fexp prec' emax') ZnearestE r = r).
    { apply round_generic; [apply valid_rnd_N|]. revert Hg. apply generic_inclusion_mag. intros _.
      unfold SpecFloat.fexp, SpecFloat.emin. lia. }
    rewrite Hr. rewrite Rlt_bool_true; [reflexivity|].
    eapply Rlt_le_trans; [apply (abs_B2R_lt_emax prec emax (SF2B _ Hx))|]. apply bpow_le, Hee.
  Qed.
End Widen.

(** ** words *)
Local Open Scope string_scope.
Lemma sapp_cons x a b : String x a +:+ b = String x (a +:+ b).
Proof. reflexivity. Qed.
Lemma sapp_assoc a b c : (a +:+ b) +:+ c = a +:+ (b +:+ c).
Proof. induction a as [|x a IH]; [reflexivity|]. rewrite !sapp_cons. cbn. f_equal. exact IH. Qed.
Lemma sapp_nil a : a +:+ "" = a.
Proof. induction a as [|x a IH]; [reflexivity|]. rewrite !sapp_cons. cbn. f_equal. exact IH. Qed.
Lemma sapp_len a b : String.length (a +:+ b) = (String.length a + String.length b)%nat.
Proof. induction a as [|x a IH]; [reflexivity|]. rewrite !sapp_cons. cbn. f_equal. exact IH. Qed.
(** the same ending can be cut off *)
Lemma sapp_cancel a b c : a +:+ c = b +:+ c -> a = b.
Proof.
  revert b. induction a as [|x a IH]; intros [|y b] H; [reflexivity|exfalso|exfalso|].
  - apply (f_equal String.length) in H. rewrite !sapp_len in H. cbn in H. lia.
  - apply (f_equal String.length) in H. rewrite !sapp_len in H. cbn in H. lia.
  - rewrite !sapp_cons in H. injection H as -> H. f_equal. apply IH, H.
Qed.
Lemma spaceless_no x y b : spaceless b -> b = x +:+ " " +:+ y -> False.
Proof. revert b. induction x as [|c x IH]; intros b Hb ->; [apply Hb; reflexivity|]. rewrite sapp_cons in Hb. destruct Hb as [_ Hb]. eapply IH; [exact Hb|reflexivity]. Qed.
(** what follows the last space *)
Lemma last_word x y a b : spaceless a -> spaceless b -> x +:+ " " +:+ a = y +:+ " " +:+ b -> x = y /\ a = b.
Proof.
  intros Ha Hb. revert y. induction x as [|c x IH]; intros [|d y] H.
  - injection H as ->. auto.
  - rewrite sapp_cons in H. injection H as _ H. exfalso. eapply spaceless_no; [exact Ha|exact H].
  - rewrite sapp_cons in H. injection H as _ H. exfalso. eapply spaceless_no; [exact Hb|symmetry; exact H].
  - rewrite !sapp_cons in H. injection H as -> H. apply IH in H as [-> ->]. auto.
Qed.
Lemma spaceless_go x : forall s, spaceless s -> spaceless (pretty_N_go x s).
Proof.
  induction (N.lt_wf_0 x) as [x _ IH]. intros s Hs. assert (x = 0 \/ 0 < x)%N as [->|Hx] by lia; [exact Hs|].
  rewrite pretty_N_go_step by exact Hx. apply IH; [apply N.div_lt; lia|]. split; [|exact Hs]. unfold pretty_N_char. repeat case_match; discriminate.
Qed.
Lemma spaceless_nat (n : nat) : spaceless (pretty n).
Proof. unfold pretty, pretty_nat, pretty, pretty_N. case_decide; [split; [discriminate|exact I]|]. apply spaceless_go. exact I. Qed.

Section Text.
  Context (show : spec_float -> string) (show3 : vec3 spec_float -> string).
  Lemma text_kind e e' : error_text show show3 e = error_text show show3 e' -> kind e = kind e'.
  Proof. destruct e, e'; intros H; try reflexivity; exfalso; cbn in H; repeat (injection H as H || discriminate H). Qed.
  Lemma text_fixed n n' : error_text show show3 (SetToFixedError n) = error_text show show3 (SetToFixedError n') -> n = n'.
  Proof. cbn [error_text]. intros H. apply (inj (String.append _)) in H. eapply sapp_cancel, H. Qed.
  Lemma text_invalid n n' : error_text show show3 (InvalidJointNameError n) = error_text show show3 (InvalidJointNameError n') -> n = n'.
  Proof. cbn [error_text]. intros H. apply (inj (String.append _)) in H. exact H. Qed.
  Lemma two_numbers pre mid a b a' b' : pre +:+ a +:+ (mid +:+ " ") +:+ b = pre +:+ a' +:+ (mid +:+ " ") +:+ b' -> spaceless b -> spaceless b' -> a = a' /\ b = b'.
  Proof.
    intros H Hb Hb'. apply (inj (String.append _)) in H.
    assert (E : forall x y, x +:+ (mid +:+ " ") +:+ y = (x +:+ mid) +:+ " " +:+ y) by (intros x y; rewrite !sapp_assoc; reflexivity).
    rewrite !E in H. apply last_word in H as [H ->]; [|assumption..]. split; [|reflexivity]. eapply sapp_cancel, H.
  Qed.
  Lemma text_size i r i' r' : error_text show show3 (SizeMismatchError i r) = error_text show show3 (SizeMismatchError i' r') -> i = i' /\ r = r'.
  Proof.
    cbn [error_text]. intros H. apply (two_numbers _ ", required =") in H as [H1 H2]; [|apply spaceless_nat..].
    apply (inj pretty) in H1, H2. auto.
  Qed.
  Lemma text_precondition i r i' r' : error_text show show3 (PreconditionError i r) = error_text show show3 (PreconditionError i' r') -> i = i' /\ r = r'.
  Proof.
    cbn [error_text]. intros H. apply (two_numbers _ ", must be greater than") in H as [H1 H2]; [|apply spaceless_nat..].
    apply (inj pretty) in H1, H2. auto.
  Qed.
  Lemma text_limit n p mx mn n' p' mx' mn' : (forall x, spaceless (show x)) ->
    error_text show show3 (OutOfLimitError n p mx mn) = error_text show show3 (OutOfLimitError n' p' mx' mn') ->
    n = n' /\ show p = show p' /\ show mx = show mx' /\ show mn = show mn'.
  Proof.
    intros Hs. cbn [error_text]. intros H. apply (inj (String.append _)) in H.
    assert (E : forall n p mx mn, n +:+ " is out of limit: " +:+ show p +:+ ", limit = " +:+ show mx +:+ " <=> " +:+ show mn =
      ((n +:+ " is out of limit: " +:+ show p +:+ ", limit = " +:+ show mx) +:+ " <=>") +:+ " " +:+ show mn) by (intros; rewrite !sapp_assoc; reflexivity).
    rewrite !E in H. apply last_word in H as [H ->]; [|apply Hs..]. apply sapp_cancel in H.
    assert (E2 : forall n p mx, n +:+ " is out of limit: " +:+ show p +:+ ", limit = " +:+ show mx =
      ((n +:+ " is out of limit: " +:+ show p) +:+ ", limit =") +:+ " " +:+ show mx) by (intros; rewrite !sapp_assoc; reflexivity).
    rewrite !E2 in H. apply last_word in H as [H ->]; [|apply Hs..]. apply sapp_cancel in H.
    assert (E3 : forall n p, n +:+ " is out of limit: " +:+ show p = (n +:+ " is out of limit:") +:+ " " +:+ show p) by (intros; rewrite !sapp_assoc; reflexivity).
    rewrite !E3 in H. apply last_word in H as [H ->]; [|apply Hs..]. apply sapp_cancel in H. auto.
  Qed.
End Text.
