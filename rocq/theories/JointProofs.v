(** * Proofs about single joints *)
From Coq Require Import String Bool.
From Verif Require Import Scalar Geometry Joint SpecJoint RangeProofs.

Section JointProofs.
  Context {T : Type} `{Sc : Scalar T}.

  Lemma movable_iff (j : joint T) : is_movable j = true <-> movable j.
  Proof. unfold is_movable, movable. destruct (j_type j); split; intros; congruence. Qed.
  Lemma not_movable_iff (j : joint T) : is_movable j = false <-> j_type j = Fixed.
  Proof. unfold is_movable. destruct (j_type j); split; intros; congruence. Qed.

  Lemma moved_to_eq (j : joint T) p j' :
    moved_to j p j' <-> j' = joint_set_unchecked j p.
  Proof.
    unfold moved_to, joint_set_unchecked. split.
    - destruct j, j'; cbn. intros (->&->&->&->&->&->&->&->). reflexivity.
    - intros ->. cbn. tauto.
  Qed.

  Lemma valid_iff (r : range T) p :
    is_valid r p = true <-> sle (rmin r) p = true /\ sle p (rmax r) = true.
  Proof. unfold is_valid, sge. rewrite andb_true_iff. tauto. Qed.

  Lemma within_limits_dec (j : joint T) p :
    within_limits j p <-> match j_limits j with Some r => is_valid r p = true | None => True end.
  Proof.
    unfold within_limits. destruct (j_limits j) as [r|].
    - rewrite valid_iff. split; [auto|]. intros H r' [= <-]. exact H.
    - split; [trivial|]. discriminate.
  Qed.

  (** joint_set, case by case *)
  Lemma joint_set_cases (j : joint T) p :
    (admissible j p /\ joint_set j p = (joint_set_unchecked j p, Ok tt)) \/
    (j_type j = Fixed /\ joint_set j p = (j, Err (SetToFixedError (j_name j)))) \/
    (movable j /\ exists r, j_limits j = Some r /\ is_valid r p = false /\
       joint_set j p = (j, Err (OutOfLimitError (j_name j) p (rmax r) (rmin r)))).
  Proof.
    unfold joint_set, admissible, joint_set_unchecked.
    destruct (is_movable j) eqn:Em; cbn [negb].
    - apply movable_iff in Em. destruct (j_limits j) as [r|] eqn:El.
      + destruct (is_valid r p) eqn:Ev; cbn [negb].
        * left. repeat split; auto; rewrite El in *;
            injection H as <-; apply valid_iff in Ev; tauto.
        * right. right. eauto.
      + left. repeat split; auto; congruence.
    - right. left. apply not_movable_iff in Em. auto.
  Qed.

  Lemma joint_set_admissible (j : joint T) p :
    admissible j p -> joint_set j p = (joint_set_unchecked j p, Ok tt).
  Proof.
    intros Ha. destruct (joint_set_cases j p) as [[_ H]|[[H _]|[_ (r&Hr&Hv&_)]]]; [exact H| |].
    - destruct Ha as [Hm _]. contradiction.
    - destruct Ha as [_ Hw]. specialize (Hw r Hr). apply valid_iff in Hw. congruence.
  Qed.
  Lemma joint_set_not_admissible (j : joint T) p :
    ~ admissible j p -> exists e, joint_set j p = (j, Err e).
  Proof.
    intros Ha. destruct (joint_set_cases j p) as [[H _]|[[_ H]|[_ (r&_&_&H)]]]; eauto. contradiction.
  Qed.
  Lemma joint_set_ok_iff (j : joint T) p :
    snd (joint_set j p) = Ok tt <-> admissible j p.
  Proof.
    destruct (joint_set_cases j p) as [[Ha E]|[[Ha E]|[Hm (r&Hr&Hv&E)]]]; rewrite E; cbn.
    - tauto.
    - split; [discriminate|]. intros [H _]. contradiction.
    - split; [discriminate|]. intros [_ H]. specialize (H r Hr). apply valid_iff in H. congruence.
  Qed.

  Lemma set_joint_lemma (j : joint T) p :
    let j' := fst (joint_set j p) in
    let res := snd (joint_set j p) in
    (res = Ok tt <-> admissible j p) /\
    (res = Ok tt -> moved_to j p j' /\ joint_position j' = Some p) /\
    (forall e, res = Err e -> j' = j /\
      ((j_type j = Fixed /\ e = SetToFixedError (j_name j)) \/
       (movable j /\ exists r, j_limits j = Some r /\
          ~ (sle (rmin r) p = true /\ sle p (rmax r) = true) /\
          e = OutOfLimitError (j_name j) p (rmax r) (rmin r)))).
  Proof.
    cbn zeta. split; [apply joint_set_ok_iff|].
    destruct (joint_set_cases j p) as [[Ha E]|[[Ha E]|[Hm (r&Hr&Hv&E)]]]; rewrite E; cbn [fst snd].
    - split; [|discriminate]. intros _. split; [apply moved_to_eq; reflexivity|].
      destruct Ha as [Hm _]. unfold movable in Hm. unfold joint_position. cbn.
      destruct (j_type j); congruence.
    - split; [discriminate|]. intros e [= <-]. auto.
    - split; [discriminate|]. intros e [= <-]. split; [reflexivity|]. right.
      split; [assumption|]. exists r. repeat split; auto.
      intros Hc. apply valid_iff in Hc. congruence.
  Qed.

  Lemma set_clamped_lemma (j : joint T) p :
    (j_type j = Fixed -> joint_set_clamped j p = j) /\
    (movable j -> j_limits j = None -> moved_to j p (joint_set_clamped j p)) /\
    (movable j -> forall r, j_limits j = Some r -> moved_to j (clamp r p) (joint_set_clamped j p)).
  Proof.
    unfold joint_set_clamped. split; [|split].
    - intros H. apply not_movable_iff in H. rewrite H. reflexivity.
    - intros H ->. apply movable_iff in H. rewrite H. cbn. apply moved_to_eq. reflexivity.
    - intros H r ->. apply movable_iff in H. rewrite H. cbn. apply moved_to_eq. reflexivity.
  Qed.

  Lemma set_clamped_inside `{!OrdLaws T} (j : joint T) p :
    limits_wf j -> snum p -> inside (joint_set_clamped j p).
  Proof.
    intros Hwf Hp Hm r Hr. unfold joint_set_clamped in *.
    destruct (is_movable j) eqn:Em; cbn [negb] in *.
    - cbn in Hr |- *. rewrite Hr. apply valid_iff.
      apply clamp_valid; auto.
    - apply not_movable_iff in Em. contradiction.
  Qed.

  Lemma set_unchecked_lemma (j : joint T) p : moved_to j p (joint_set_unchecked j p).
  Proof. apply moved_to_eq. reflexivity. Qed.
End JointProofs.
