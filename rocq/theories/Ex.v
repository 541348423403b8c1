(** * Ingredients of the concrete examples: f64 numbers, joints, small heaps *)
From Coq Require Import String ZArith Floats.SpecFloat.
From stdpp Require Import gmap.
From Verif Require Import Scalar ScalarF Geometry Joint Link Prog NodeM SpecJoint SpecNode.

Definition L0 : libm := Build_libm (fun x => x) (fun x => x) (fun x _ => x).
Global Instance EF : Scalar spec_float := F64 L0.
(** the f64 with this integer value *)
Definition f (z : Z) : spec_float := SFofZ 53 1024 z.

Definition lin (name : string) (lo hi : Z) : joint spec_float :=
  builder_finalize name (Linear z_axis) (Some (Range (f lo) (f hi))) iso1.
Definition rot (name : string) : joint spec_float :=
  builder_finalize name (Rotational y_axis) None iso1.
Definition fix_ (name : string) : joint spec_float := builder_finalize name Fixed None iso1.
Definition trans (x y z : Z) : iso spec_float := Iso (V3 (f x) (f y) (f z)) q1.
Definition lin_at (name : string) (o : iso spec_float) : joint spec_float :=
  builder_finalize name (Linear z_axis) None o.
Definition fix_at (name : string) (o : iso spec_float) : joint spec_float :=
  builder_finalize name Fixed None o.

(** run a program from an empty heap and look at the result *)
Definition pos_of (s : sh spec_float) (a : nat) : option spec_float :=
  n ← heap s !! a; joint_position (n_joint n).
Definition final {A} (o : outcome spec_float A) : option (A * sh spec_float) :=
  match o with Done a s => Some (a, s) | _ => None end.
Definition empty_sh : sh spec_float := quiet ∅ 0.
(** state reached by running a program from an empty heap *)
Definition after {A} (p : prog spec_float A) : sh spec_float :=
  match run 0 p empty_sh with Done _ s => quiet (heap s) (nxt s) | _ => empty_sh end.

(** checking [mimic_wf] of a concrete heap by computation *)
Definition isS {A} (o : option A) : bool := match o with Some _ => true | None => false end.
Definition mimic_wfb {T} (h : gmap nat (node T)) : bool :=
  forallb (fun an => forallb (fun c =>
    match h !! c with
    | Some cn => isS (n_mimic_parent cn) && isS (n_mimic cn)
    | None => false
    end) (n_mimic_children an.2)) (map_to_list h).
Lemma mimic_wfb_sound {T} (h : gmap nat (node T)) : mimic_wfb h = true -> mimic_wf h.
Proof.
  unfold mimic_wfb. rewrite forallb_forall. intros H a n c Hn Hc.
  assert (Hin : In (a, n) (map_to_list h)).
  { apply elem_of_list_In. apply elem_of_map_to_list. exact Hn. }
  specialize (H _ Hin). rewrite forallb_forall in H. cbn in H.
  apply elem_of_list_In in Hc. specialize (H _ Hc). destruct (h !! c) as [cn|]; [|discriminate].
  apply andb_prop in H. exists cn. split; [reflexivity|].
  destruct (n_mimic_parent cn), (n_mimic cn); cbn in H; destruct H; try discriminate; eauto.
Qed.
