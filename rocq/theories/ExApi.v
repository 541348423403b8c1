(** * Checking [heap_ok] of concrete heaps by computation *)
From Coq Require Import String ZArith Floats.SpecFloat.
From stdpp Require Import gmap.
From Verif Require Import Scalar ScalarF Geometry Joint Link Prog NodeM SpecJoint SpecNode Api Ex.

Definition ltb_opt (o : option nat) (nx : nat) : bool := match o with Some w => Nat.ltb w nx | None => true end.
Definition heap_okb {T} (h : gmap nat (node T)) (nx : nat) : bool :=
  forallb (fun an => Nat.ltb an.1 nx && forallb (fun c => isS (h !! c)) (n_children an.2) &&
    forallb (fun c => isS (h !! c)) (n_mimic_children an.2) &&
    ltb_opt (n_parent an.2) nx && ltb_opt (n_mimic_parent an.2) nx) (map_to_list h).
Lemma heap_okb_sound {T} (h : gmap nat (node T)) nx : heap_okb h nx = true -> heap_ok h nx.
Proof.
  unfold heap_okb. rewrite forallb_forall. intros H.
  assert (Hn : forall a n, h !! a = Some n -> a < nx /\ (forall c, c ∈ n_children n -> is_Some (h !! c)) /\
    (forall c, c ∈ n_mimic_children n -> is_Some (h !! c)) /\ (forall w, n_parent n = Some w -> w < nx) /\
    (forall w, n_mimic_parent n = Some w -> w < nx)).
  { intros a n Hn. assert (Hin : In (a, n) (map_to_list h)) by (apply elem_of_list_In, elem_of_map_to_list; exact Hn).
    specialize (H _ Hin). cbn in H. rewrite !andb_true_iff, !forallb_forall in H. destruct H as [[[[H1 H2] H3] H4] H5].
    split; [apply Nat.ltb_lt; assumption|].
    split; [intros c Hc; apply elem_of_list_In in Hc; specialize (H2 c Hc); destruct (h !! c); [eauto|discriminate]|].
    split; [intros c Hc; apply elem_of_list_In in Hc; specialize (H3 c Hc); destruct (h !! c); [eauto|discriminate]|].
    split; intros w Hw; [rewrite Hw in H4|rewrite Hw in H5]; apply Nat.ltb_lt; assumption. }
  split.
  - intros a [n Ha]. destruct (Hn a n Ha) as (H1 & H2 & H3 & H4 & H5). auto.
  - intros a n x Ha. destruct (Hn a n Ha) as (H1 & H2 & H3 & H4 & H5). auto.
  - intros a n x Ha. destruct (Hn a n Ha) as (H1 & H2 & H3 & H4 & H5). auto.
  - intros a n x Ha. destruct (Hn a n Ha) as (H1 & H2 & H3 & H4 & H5). auto.
  - intros a n x Ha. destruct (Hn a n Ha) as (H1 & H2 & H3 & H4 & H5). auto.
Qed.
(** all joints inside ordered limits *)
Definition insideb (j : joint spec_float) : bool :=
  match j_limits j with
  | None => true
  | Some r => sle (rmin r) (rmax r) && sle (rmin r) (j_position j) && sle (j_position j) (rmax r)
  end.
Definition all_insideb (h : gmap nat (node spec_float)) : bool :=
  forallb (fun an => insideb (n_joint an.2)) (map_to_list h).
Lemma insideb_sound j : insideb j = true -> limits_wf j /\ inside j.
Proof.
  unfold insideb, limits_wf, inside, within_limits. destruct (j_limits j) as [r|]; [|intros _; split; intros; discriminate].
  rewrite !andb_true_iff. intros [[H1 H2] H3]. split; [intros r' E|intros _ r' E]; injection E as <-; auto.
Qed.
Lemma all_insideb_sound h : all_insideb h = true ->
  forall a n, h !! a = Some n -> limits_wf (n_joint n) /\ inside (n_joint n).
Proof.
  unfold all_insideb. rewrite forallb_forall. intros H a n Hn. apply insideb_sound.
  apply (H (a, n)). apply elem_of_list_In, elem_of_map_to_list. exact Hn.
Qed.
